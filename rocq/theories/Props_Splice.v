(** * Props_Splice: C105 putting one text into another *)
From Verif Require Import Base Value ValueFacts Chars Parse Spec_Grammar ParseFacts ParseNum Fmt LayoutFacts Spec_Layout Spec_Edit Spec_Splice SpliceFacts Props_Value Props_Parse Props_Fmt Props_Layout.
Local Open Scope N_scope.

(** ** Replacing a part *)
Lemma at_path_step {C} (v : value C) l ls : at_path v (l :: ls) = match at_value v l with Some c => at_path c ls | None => None end.
Proof.
  unfold at_path. cbn [fold_left]. change (at_opt (Some v) l) with (at_value v l). destruct (at_value v l); [reflexivity|]. induction ls; [reflexivity|exact IHls].
Qed.

Lemma replaced_at {C} (c c' : composite (value C)) i x x' : replaced c c' i x x' ->
  at_composite c (LIdx i) = Some x /\ at_composite c' (LIdx i) = Some x' /\ forall j, j <> i -> at_composite c' (LIdx j) = at_composite c (LIdx j).
Proof.
  assert (NE : forall B (l1 l2 : list B) b, nth_error (l1 ++ b :: l2) (length l1) = Some b) by (intros; now rewrite nth_error_app2, Nat.sub_diag).
  assert (NN : forall B (l1 l2 : list B) b b' j, j <> length l1 -> nth_error (l1 ++ b :: l2) j = nth_error (l1 ++ b' :: l2) j).
  { intros B l1 l2 b b' j N. destruct (Nat.lt_ge_cases j (length l1)); [now rewrite !nth_error_app1 by assumption|]. rewrite !nth_error_app2 by assumption.
    destruct (j - length l1)%nat eqn:E; [lia|reflexivity]. }
  intros [(l1 & k & l2 & L & -> & ->)|(l1 & l2 & L & -> & ->)]; subst i; cbn [at_composite].
  - rewrite !NE. split; [reflexivity|]. split; [reflexivity|]. intros j N. now rewrite (NN _ l1 l2 (k, x') (k, x)).
  - rewrite !NE. split; [reflexivity|]. split; [reflexivity|]. intros j N. now rewrite (NN _ l1 l2 x' x).
Qed.

Lemma at_replaced {C} (c : composite (value C)) i x x' : at_composite c (LIdx i) = Some x -> exists c', replaced c c' i x x'.
Proof.
  destruct c as [l|l]; cbn [at_composite]; intro H.
  - destruct (nth_error l i) as [[k y]|] eqn:E; [|discriminate]. injection H as <-. apply nth_error_split in E as (l1 & l2 & -> & L).
    eexists. left. exists l1, k, l2. split; [exact L|]. split; reflexivity.
  - apply nth_error_split in H as (l1 & l2 & -> & L). eexists. right. exists l1, l2. split; [exact L|]. split; reflexivity.
Qed.

(** Where there is a part ([at] finds it), anything can be put in its place. *)
Theorem C105_replaceable : forall (C : Type) p (v u w : value C), at_path v (map LIdx p) = Some u -> exists v', swap p u w v v'.
Proof.
  intros C p. induction p as [|i p IH]; intros v u w.
  - cbn [map]. intro H. injection H as ->. exists w. constructor.
  - cbn [map]. rewrite at_path_step. destruct (at_value v (LIdx i)) as [x|] eqn:E; [|discriminate]. intro H. destruct (IH _ _ w H) as [x' S].
    destruct v as [d y]. unfold at_value in E. cbn [vdef_of] in E. destruct d as [c|n c|b|q]; try discriminate.
    + destruct (at_replaced c i x x' E) as [c' R]. eexists. eapply Swap_composite; eassumption.
    + destruct (at_replaced c i x x' E) as [c' R]. eexists. eapply Swap_variant; eassumption.
Qed.
Print Assumptions C105_replaceable.

(** Then it is there, and what stands elsewhere is what stood there before. *)
Theorem C105_replaced : forall (C : Type) p (v v' u w : value C), swap p u w v v' ->
  at_path v (map LIdx p) = Some u /\ at_path v' (map LIdx p) = Some w /\
  (forall q i j r s, p = q ++ i :: r -> j <> i -> at_path v' (map LIdx (q ++ j :: s)) = at_path v (map LIdx (q ++ j :: s))) /\
  forall v2, swap p u w v v2 -> v2 = v'.
Proof.
  intros C p v v' u w S. induction S as [u w|i p u w c c' x x' y R S IH|i p u w n c c' x x' y R S IH].
  - split; [reflexivity|]. split; [reflexivity|]. split; [intros [|? q] i j r s E; discriminate|]. intros v2 S2. now inversion S2.
  - destruct (replaced_at _ _ _ _ _ R) as (A1 & A2 & A3). destruct IH as (I1 & I2 & I3 & I4). split; [|split; [|split]].
    + cbn [map]. rewrite at_path_step. unfold at_value. cbn [vdef_of]. rewrite A1. exact I1.
    + cbn [map]. rewrite at_path_step. unfold at_value. cbn [vdef_of]. rewrite A2. exact I2.
    + intros [|i' q] i2 j r s E N; cbn [app] in E; injection E as -> E.
      * cbn [app map]. rewrite !at_path_step. unfold at_value. cbn [vdef_of]. now rewrite A3.
      * cbn [app map]. rewrite !at_path_step. unfold at_value. cbn [vdef_of]. rewrite A1, A2. eauto.
    + intros v2 S2. inversion S2; subst. match goal with H : replaced c ?c2 _ ?z ?z' |- _ => rename H into R2; rename c2 into cc end.
      destruct (replaced_fun _ _ _ _ _ _ _ _ R R2) as [<- [(l1 & k & l2 & _ & _ & -> & ->)|(l1 & l2 & _ & _ & -> & ->)]];
        match goal with H : swap p u w x _ |- _ => apply I4 in H; now rewrite H end.
  - destruct (replaced_at _ _ _ _ _ R) as (A1 & A2 & A3). destruct IH as (I1 & I2 & I3 & I4). split; [|split; [|split]].
    + cbn [map]. rewrite at_path_step. unfold at_value. cbn [vdef_of]. rewrite A1. exact I1.
    + cbn [map]. rewrite at_path_step. unfold at_value. cbn [vdef_of]. rewrite A2. exact I2.
    + intros [|i' q] i2 j r s E N; cbn [app] in E; injection E as -> E.
      * cbn [app map]. rewrite !at_path_step. unfold at_value. cbn [vdef_of]. now rewrite A3.
      * cbn [app map]. rewrite !at_path_step. unfold at_value. cbn [vdef_of]. rewrite A1, A2. eauto.
    + intros v2 S2. inversion S2; subst. match goal with H : replaced c ?c2 _ ?z ?z' |- _ => rename H into R2; rename c2 into cc end.
      destruct (replaced_fun _ _ _ _ _ _ _ _ R R2) as [<- [(l1 & k & l2 & _ & _ & -> & ->)|(l1 & l2 & _ & _ & -> & ->)]];
        match goal with H : swap p u w x _ |- _ => apply I4 in H; now rewrite H end.
Qed.
Print Assumptions C105_replaced.

(** ** Reading *)
(** In the text of a value every part has its place: there stands a text of the part, and any text of any value can be put there instead; the result is a text of
    the value with that part replaced.  So texts can be made from pieces with [format!], and parts of a text edited without reading the whole. *)
Theorem C105_substitute : forall U t v p u, unicode_ok U -> from_str U t = (Ok v, []) -> at_path v (map LIdx p) = Some u ->
  exists a x b, t = a ++ x ++ b /\ from_str U x = (Ok u, []) /\
    forall y w, from_str U y = (Ok w, []) -> exists v', swap p u w v v' /\ from_str U (a ++ y ++ b) = (Ok v', []).
Proof.
  intros U t v p u UO H A. destruct (C105_replaceable _ _ _ _ u A) as [v0 S]. apply from_str_iff in H; [|exact UO].
  destruct (grammar_split _ _ _ _ _ _ S _ H) as (a & x & b & -> & G & F). exists a, x, b. split; [reflexivity|].
  split; [now apply from_str_iff|]. intros y w Hy. destruct (C105_replaceable _ _ _ _ w A) as [v' S']. exists v'. split; [exact S'|].
  apply from_str_iff; [exact UO|]. apply (F w v'); [exact S'|]. now apply from_str_iff.
Qed.
Print Assumptions C105_substitute.

(** In particular a string or a char is safe there in the text [Display] gives it, whatever it contains. *)
Theorem C105_quoted : forall U t v p u, unicode_ok U -> from_str U t = (Ok v, []) -> at_path v (map LIdx p) = Some u ->
  exists a x b, t = a ++ x ++ b /\
    (forall s, exists y v', display U false (vstring s) = Some y /\ swap p u (vstring s) v v' /\ from_str U (a ++ y ++ b) = (Ok v', [])) /\
    (forall c, exists y v', display U false (vchar c) = Some y /\ swap p u (vchar c) v v' /\ from_str U (a ++ y ++ b) = (Ok v', [])).
Proof.
  intros U t v p u UO H A. destruct (C105_substitute _ _ _ _ _ UO H A) as (a & x & b & E & _ & F). exists a, x, b. split; [exact E|].
  split; intro s.
  - destruct (C10_strings_and_chars U s 0%N []) as [(y & D & R) _]. rewrite app_nil_r in R. destruct (F _ _ R) as (v' & S & R'). eauto 6.
  - destruct (C10_strings_and_chars U [] s []) as [_ (y & D & R)]. rewrite app_nil_r in R. destruct (F _ _ R) as (v' & S & R'). eauto 6.
Qed.
Print Assumptions C105_quoted.

(** ** Writing *)
(** The one-line text of a value is made of the texts of its parts in the same way, contexts included: the text of the value with another part there differs only in
    that part's text. *)
Theorem C105_printed : forall (C : Type) U ind lead (ctx_text : option (C -> str)) st (v u : value C) p t, st = Compact \/ st = Normal ->
  pure_text U ind lead [] ctx_text st v = Some t -> at_path v (map LIdx p) = Some u ->
  exists a x b, t = a ++ x ++ b /\ pure_text U ind lead [] ctx_text st u = Some x /\
    forall w v' y, swap p u w v v' -> pure_text U ind lead [] ctx_text st w = Some y -> pure_text U ind lead [] ctx_text st v' = Some (a ++ y ++ b).
Proof.
  intros C U ind lead ctx_text st v u p t ST H A. destruct (C105_replaceable _ _ _ _ u A) as [v0 S].
  assert (E : exists sp, forall z : value C, pure_text U ind lead [] ctx_text st z = one_line (bare_name U) [] ctx_text sp z).
  { destruct ST as [-> | ->]; [exists []|exists (s2l " ")]; intro z; apply C59_one_line_styles. }
  destruct E as [sp E]. rewrite E in H. destruct (text_split _ _ _ _ _ _ _ _ S _ H) as (a & x & b & HX & -> & F). exists a, x, b. split; [reflexivity|].
  split; [rewrite E; exact HX|]. intros w v' y S' HY. rewrite E in HY |- *. eauto.
Qed.
Print Assumptions C105_printed.

Theorem C105_displayed : forall U (v u : value unit) p t, display U false v = Some t -> at_path v (map LIdx p) = Some u ->
  exists a x b, t = a ++ x ++ b /\ display U false u = Some x /\
    forall w v' y, swap p u w v v' -> display U false w = Some y -> display U false v' = Some (a ++ y ++ b).
Proof.
  intros U v u p t H A. destruct (C105_replaceable _ _ _ _ u A) as [v0 S].
  destruct (C59_display unit U v) as [E _]. rewrite E in H. destruct (text_split _ _ _ _ _ _ _ _ S _ H) as (a & x & b & HX & -> & F). exists a, x, b. split; [reflexivity|].
  split; [rewrite (proj1 (C59_display unit U u)); exact HX|]. intros w v' y S' HY. rewrite (proj1 (C59_display unit U w)) in HY. rewrite (proj1 (C59_display unit U v')). eauto.
Qed.
Print Assumptions C105_displayed.

(** ** What must not be put there *)
(** A text that is not the text of a value can do more than replace the part, also where the whole is again a text: it can add parts. *)
Theorem C105_injection_refuted : exists a x b y (v v' : value unit),
  from_str ascii_unicode (a ++ x ++ b) = (Ok v, []) /\ from_str ascii_unicode (a ++ y ++ b) = (Ok v', []) /\
  at_path v [LIdx 0%nat] = Some (vstring (s2l "a")) /\ from_str ascii_unicode x = (Ok (vstring (s2l "a")), []) /\
  forall w, ~ swap [0%nat] (vstring (s2l "a")) w v v'.
Proof.
  exists (s2l "("), (s2l """a"""), (s2l ", true)"), (s2l """a"", """""). eexists _, _. split; [vm_compute; reflexivity|]. split; [vm_compute; reflexivity|].
  split; [reflexivity|]. split; [vm_compute; reflexivity|]. intros w S. inversion S as [|i p u0 w0 c c' x x' y R S'|]; subst.
  destruct R as [(l1 & k & l2 & _ & E & _)|(l1 & l2 & L & E & E')]; [discriminate|]. destruct l1; [|discriminate]. injection E as _ <-. discriminate.
Qed.
Print Assumptions C105_injection_refuted.

(** ** Examples *)
Definition C105_text : str := s2l "{ name: ""x"", at: v""some place"" { pos: (1, -2), tags: <01> } }".
Example C105_example : exists v v', from_str ascii_unicode C105_text = (Ok v, []) /\ at_path v (map LIdx [1; 0; 1])%nat = Some (vi128 (-2)) /\
  swap [1; 0; 1]%nat (vi128 (-2)) (vstring (s2l "),(")) v v' /\
  from_str ascii_unicode (s2l "{ name: ""x"", at: v""some place"" { pos: (1, ""),(""), tags: <01> } }") = (Ok v', []).
Proof.
  eexists _, _. split; [vm_compute; reflexivity|]. split; [vm_compute; reflexivity|]. split; [|vm_compute; reflexivity].
  eapply Swap_composite. { left. eexists [_], _, []. split; [reflexivity|]. split; reflexivity. }
  eapply Swap_variant. { left. eexists [], _, [_]. split; [reflexivity|]. split; reflexivity. }
  eapply Swap_composite. { right. eexists [_], []. split; [reflexivity|]. split; reflexivity. }
  apply Swap_here.
Qed.


Example C105_example_displayed : exists v v', swap [1]%nat (vu128 2) (vstring (s2l "),(")) v v' /\
  display ascii_unicode false v = Some (s2l "Foo (1, 2, true)") /\ display ascii_unicode false v' = Some (s2l "Foo (1, ""),("", true)").
Proof.
  eexists _, _. split; [|split].
  - eapply Swap_variant with (n := s2l "Foo") (y := tt). { right. exists [vu128 1], [Val (DPrim (PBool true)) tt]. split; [reflexivity|]. split; reflexivity. } apply Swap_here.
  - vm_compute. reflexivity.
  - vm_compute. reflexivity.
Qed.
