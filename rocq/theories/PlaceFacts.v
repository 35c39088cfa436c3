(** * PlaceFacts: the place of a part in a printed text is its place for reading too (C107). *)
From Verif Require Import Base Value ValueFacts Chars Parse Spec_Grammar ParseFacts ParseNum Fmt Spec_Fmt FmtFacts FmtText LayoutFacts Spec_Layout Spec_Edit Spec_Splice SpliceFacts EditTextFacts
  Props_Value Props_Parse Props_Fmt Props_Layout Props_Splice.
Local Open Scope N_scope.

(** A run of [x] between two [q], longer than all the rest, can be found in one place only. *)
Lemma one_place (a b a2 b2 : str) n q x : q <> x -> (length a + length b < n)%nat ->
  a ++ (q :: repeat x n ++ [q]) ++ b = a2 ++ (q :: repeat x n ++ [q]) ++ b2 -> a2 = a /\ b2 = b.
Proof.
  assert (POS : forall (a b a2 b2 : str), q <> x -> (length a + length b < n)%nat -> (length a2 + length b2 < n)%nat ->
    a ++ (q :: repeat x n ++ [q]) ++ b = a2 ++ (q :: repeat x n ++ [q]) ++ b2 -> ~ (length a < length a2)%nat).
  { clear. intros a b a2 b2 N L L2 E H. apply (f_equal (fun l => nth_error l (length a2))) in E.
    rewrite nth_error_app2 in E by lia. rewrite (nth_error_app2 a2), Nat.sub_diag in E by lia. cbn [app nth_error] in E.
    destruct (length a2 - length a)%nat as [|k] eqn:K; [lia|]. cbn [nth_error] in E. rewrite <- app_assoc, nth_error_app1 in E by (rewrite repeat_length; lia).
    rewrite nth_error_repeat in E by lia. injection E as E. congruence. }
  intros N L E. assert (LL : (length a2 + length b2 = length a + length b)%nat).
  { apply (f_equal (@length _)) in E. rewrite !app_length in E. lia. }
  assert (LA : length a2 = length a).
  { pose proof (POS a b a2 b2 N L ltac:(lia) E). pose proof (POS a2 b2 a b N ltac:(lia) L (eq_sym E)). lia. }
  clear - E LA. revert a2 E LA. induction a as [|z a IH]; intros [|z2 a2] E LA; try discriminate.
  - cbn [app] in E. injection E as E. repeat rewrite <- app_assoc in E. apply app_inv_head in E. injection E as E. auto.
  - cbn [app] in E. injection E as <- E. injection LA as LA. destruct (IH a2 E LA) as [-> ->]. auto.
Qed.

Definition mark {T} n (x : T) : value T := Val (DPrim (PString (repeat 65 n))) x.
Definition mark_text n : str := c_dquote :: repeat 65 n ++ [c_dquote].
Lemma mark_prints {T} U n (x : T) : display U false (mark n x) = Some (mark_text n).
Proof.
  rewrite (proj1 (C59_display T U _)). unfold mark, mark_text. cbn [one_line first_answer omap leaf_text ctx_prefix app]. do 2 f_equal.
  unfold string_literal. cbn [app]. do 2 f_equal. induction n as [|n IH]; [reflexivity|]. cbn [repeat map concat]. change (escaped 65) with [65]. cbn [app]. now rewrite IH.
Qed.
Lemma mark_reads U n t : grammar U (vstring (repeat 65 n)) t -> t = mark_text n.
Proof.
  intro G. inversion G as [| |? ? H|? ? (b & H & E)|? ? H| | | |? ? []]; subst.
  - unfold mark_text. cbn [app]. do 2 f_equal. clear - H. remember (repeat 65 n) as s eqn:E. revert n E.
    induction H as [|c s t N1 N2 H IH|c e s t I H IH]; intros [|n] E; try discriminate; [reflexivity| |].
    + cbn [repeat] in *. injection E as -> E. now rewrite (IH n E).
    + cbn [repeat] in E. injection E as -> E. unfold escapes in I. cbn [In] in I. repeat (destruct I as [I|I]; [discriminate|]). destruct I.
  - inversion H.
Qed.

Lemma replaced_comp {C} (c c1 c2 : composite (value C)) i x x1 x2 : replaced c c1 i x x1 -> replaced c1 c2 i x1 x2 -> replaced c c2 i x x2.
Proof.
  intros [(l1 & k & l2 & L & -> & ->)|(l1 & l2 & L & -> & ->)] [(m1 & k' & m2 & M & E & ->)|(m1 & m2 & M & E & ->)]; try discriminate; [left|right].
  - exists l1, k, l2. split; [exact L|]. split; [reflexivity|]. injection E as E. f_equal. clear - E L M. revert m1 M E.
    subst i. induction l1 as [|z l1 IH]; intros [|z' m1] M E; try discriminate; cbn [app] in *; [injection E as -> ->; reflexivity|].
    injection E as -> E. injection M as M. f_equal. apply IH; assumption.
  - exists l1, l2. split; [exact L|]. split; [reflexivity|]. injection E as E. f_equal. clear - E L M. revert m1 M E.
    subst i. induction l1 as [|z l1 IH]; intros [|z' m1] M E; try discriminate; cbn [app] in *; [injection E as ->; reflexivity|].
    injection E as -> E. injection M as M. f_equal. apply IH; assumption.
Qed.
Lemma swap_comp {C} p (u w1 w2 v v1 v2 : value C) : swap p u w1 v v1 -> swap p w1 w2 v1 v2 -> swap p u w2 v v2.
Proof.
  intro S. revert w2 v2. induction S as [u w|i p u w c c' x x' y R S IH|i p u w n c c' x x' y R S IH]; intros w2 v2 S2; inversion S2; subst; [constructor| |].
  - match goal with H : replaced c' ?c2 i ?z ?z2, HS : swap p w w2 ?z ?z2 |- _ => rename H into R2; rename HS into SS; assert (z = x') as -> by
      (destruct R as [(l1 & k & l2 & L & -> & ->)|(l1 & l2 & L & -> & ->)];
       destruct R2 as [(m1 & k' & m2 & M & E & ->)|(m1 & m2 & M & E & ->)]; try discriminate; injection E as E; apply (f_equal (fun l => nth_error l i)) in E;
       rewrite !nth_error_app2 in E by lia; replace (i - length l1)%nat with O in E by lia; replace (i - length m1)%nat with O in E by lia; cbn [nth_error] in E; congruence) end.
    eapply Swap_composite; [eapply replaced_comp; eassumption|eauto].
  - match goal with H : replaced c' ?c2 i ?z ?z2, HS : swap p w w2 ?z ?z2 |- _ => rename H into R2; rename HS into SS; assert (z = x') as -> by
      (destruct R as [(l1 & k & l2 & L & -> & ->)|(l1 & l2 & L & -> & ->)];
       destruct R2 as [(m1 & k' & m2 & M & E & ->)|(m1 & m2 & M & E & ->)]; try discriminate; injection E as E; apply (f_equal (fun l => nth_error l i)) in E;
       rewrite !nth_error_app2 in E by lia; replace (i - length l1)%nat with O in E by lia; replace (i - length m1)%nat with O in E by lia; cbn [nth_error] in E; congruence) end.
    eapply Swap_variant; [eapply replaced_comp; eassumption|eauto].
Qed.

Lemma replaced_all {C} (P : value C -> bool) (c c' : composite (value C)) i x x' : replaced c c' i x x' -> (P x = true -> P x' = true) ->
  forallb P (values c) = true -> forallb P (values c') = true.
Proof.
  intros R K. assert (Z : exists l1 l2, values c = l1 ++ x :: l2 /\ values c' = l1 ++ x' :: l2).
  { destruct R as [(l1 & k & l2 & L & -> & ->)|(l1 & l2 & L & -> & ->)]; cbn [values]; rewrite ?map_app; cbn [map snd]; eauto. }
  destruct Z as (l1 & l2 & -> & ->). rewrite !forallb_app. cbn [forallb]. intro H. apply andb_prop in H as [H1 H2]. apply andb_prop in H2 as [H2 H3]. now rewrite H1, (K H2), H3.
Qed.
Lemma text_ok_vals {T} bare (c : composite (value T)) y : text_ok bare (Val (DComposite c) y) = forallb (text_ok bare) (values c).
Proof. destruct c as [l|l]; cbn [text_ok values]; [|reflexivity]. induction l as [|[k z] l IH]; [reflexivity|]. cbn [forallb map snd]. now rewrite IH. Qed.
Lemma text_ok_vals_v {T} bare n (c : composite (value T)) y : text_ok bare (Val (DVariant n c) y) = negb (bare n && bool_like n) && forallb (text_ok bare) (values c).
Proof. destruct c as [l|l]; cbn [text_ok values]; [|reflexivity]. f_equal. induction l as [|[k z] l IH]; [reflexivity|]. cbn [forallb map snd]. now rewrite IH. Qed.
Lemma swap_text_ok {T} bare p (u w v v' : value T) : swap p u w v v' -> text_ok bare w = true -> text_ok bare v = true -> text_ok bare v' = true.
Proof.
  induction 1 as [u w|i p u w c c' x x' y R S IH|i p u w n c c' x x' y R S IH]; intros HW HV; [exact HW| |].
  - rewrite text_ok_vals in *. eapply replaced_all; [exact R|auto|exact HV].
  - rewrite text_ok_vals_v in *. apply andb_prop in HV as [H1 HV]. rewrite H1. eapply replaced_all; [exact R|auto|exact HV].
Qed.

Theorem place T U (v v0 u w0 : value T) p t : unicode_ok U -> text_ok (is_ident U) v = true -> display U false v = Some t -> swap p u w0 v v0 ->
  exists a x b, t = a ++ x ++ b /\ display U false u = Some x /\
    forall y w, from_str U y = (Ok w, []) -> exists vt, swap p (unsigned_form u) w (unsigned_form v) vt /\ from_str U (a ++ y ++ b) = (Ok vt, []).
Proof.
  intros UO OK H S. pose proof (proj1 (C59_display T U v)) as E. rewrite E in H.
  destruct (text_split _ _ _ _ _ _ _ _ S _ H) as (a & x & b & HX & -> & F). exists a, x, b. split; [reflexivity|].
  split; [rewrite (proj1 (C59_display T U u)); exact HX|]. intros y w Hy.
  assert (LN : exists n, (length a + length b < n)%nat) by (exists (1 + (length a + length b))%nat; lia). destruct LN as [n LN]. set (x0 := match v with Val _ c => c end).
  destruct (C105_replaceable _ p v u (mark n x0)) as [vm SM]; [apply (C105_replaced _ _ _ _ _ _ S)|].
  assert (DM : display U false vm = Some (a ++ mark_text n ++ b)).
  { rewrite (proj1 (C59_display T U vm)). apply (F _ _ _ SM). rewrite <- (proj1 (C59_display T U _)). apply mark_prints. }
  assert (OKM : text_ok (is_ident U) vm = true).
  { eapply swap_text_ok; [exact SM| |exact OK]. unfold mark. cbn [text_ok prim_wf]. clear. induction n as [|n IH]; [reflexivity|exact IH]. }
  assert (RM : from_str U (a ++ mark_text n ++ b) = (Ok (unsigned_form vm), [])).
  { destruct (C04_text_roundtrip T U (s2l "  ") [] Normal vm [] UO eq_refl eq_refl OKM I) as (tm & P & R). rewrite app_nil_r in R. unfold display in DM. rewrite P in DM. assert (tm = a ++ mark_text n ++ b) as <- by congruence. exact R. }
  assert (AM : at_path (unsigned_form vm) (map LIdx p) = Some (vstring (repeat 65 n))).
  { apply swap_unsigned in SM. apply (C105_replaced _ _ _ _ _ _ SM). }
  destruct (C105_substitute _ _ _ _ _ UO RM AM) as (a2 & x2 & b2 & E2 & R2 & F2). apply from_str_iff in R2; [|exact UO]. apply mark_reads in R2. subst x2.
  apply one_place in E2 as [-> ->]; [|discriminate|exact LN]. destruct (F2 _ _ Hy) as (vt & ST & RT). exists vt. split; [|exact RT].
  eapply swap_comp; [exact (swap_unsigned _ _ _ _ _ SM)|exact ST].
Qed.
