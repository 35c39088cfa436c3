(** * EditAnyFacts: a part of a decoded value is replaced by anything that fits there (C106). *)
From Verif Require Import Base Value ValueFacts Registry Spec_Scale Spec_Decode Scale ScaleFacts Spec_Encode Encode EncodeSound Spec_Same Spec_Writes WritesFacts Spec_Edit Spec_Splice EditFacts MigrateFacts.
Open Scope N_scope.

(** Where one value can stand, so can any other. *)
Lemma swap_any {C} p (u w v v' : value C) : swap p u w v v' -> forall w2, exists v2, swap p u w2 v v2.
Proof.
  assert (A : forall (c c' : composite (value C)) i x x' x2, replaced c c' i x x' -> exists c2, replaced c c2 i x x2).
  { intros c c' i x x' x2 [(l1 & k & l2 & L & -> & _)|(l1 & l2 & L & -> & _)]; eexists; [left; exists l1, k, l2|right; exists l1, l2]; (split; [exact L|split; reflexivity]). }
  induction 1 as [u w|i p u w c c' x x' y R S IH|i p u w n c c' x x' y R S IH]; intro w2.
  - exists w2. constructor.
  - destruct (IH w2) as [x2 S2]. destruct (A _ _ _ _ _ x2 R) as [c2 R2]. eexists. eapply Swap_composite; eassumption.
  - destruct (IH w2) as [x2 S2]. destruct (A _ _ _ _ _ x2 R) as [c2 R2]. eexists. eapply Swap_variant; eassumption.
Qed.

Section EditAny.
  Context {TId C : Type} (reg : TId -> resolution TId) (X : ext).
  Local Notation W := (writes (T := C) reg X).
  Local Notation FW := (fun v t (_ : bytes) => fits reg X v t).

  (** ** Chains of types *)
  Lemma tr_wraps1 t t' : transparent reg t t' -> wraps1 reg t t'.
  Proof. intro H. inversion H; subst; [eapply W_struct|eapply W_tuple]; eassumption. Qed.
  Lemma wraps1_det t t1 t2 : wraps1 reg t t1 -> wraps1 reg t t2 -> t1 = t2.
  Proof. intros H1 H2. inversion H1; subst; inversion H2; subst; congruence. Qed.
  Lemma wraps_det t t1 t2 : wraps reg t t1 -> wraps reg t t2 -> t1 = t2.
  Proof.
    intros H1 H2. inversion H1 as [? ? A|? ? A]; subst; inversion H2 as [? ? B|? ? B]; subst; [eapply wraps1_det; eassumption| | |congruence].
    - inversion A; subst; congruence.
    - inversion B; subst; congruence.
  Qed.
  Lemma tr_det t t1 t2 : transparent reg t t1 -> transparent reg t t2 -> t1 = t2.
  Proof. intros H1 H2. apply tr_wraps1 in H1. apply tr_wraps1 in H2. eapply wraps1_det; eassumption. Qed.

  (** A chain that does not stop inside the newtypes goes through the last of them. *)
  Lemma chain_through (R : TId -> TId -> Prop) : (forall t t', transparent reg t t' -> R t t') -> (forall t t1 t2, R t t1 -> R t t2 -> t1 = t2) ->
    forall t u, chain (transparent reg) t u -> forall v, chain R t v -> (forall w, ~ transparent reg v w) -> chain R u v.
  Proof.
    intros I D t u H. induction H as [t|t t' u S H IH]; intros v Cv NV; [exact Cv|]. inversion Cv as [|? t2 ? S2 C2]; subst; [exfalso; eapply NV, S|].
    apply IH; [|exact NV]. rewrite (D _ _ _ (I _ _ S) S2). exact C2.
  Qed.
  Lemma not_tr_prim t p : reg t = ResTy (TPrim p) -> forall w, ~ transparent reg t w.
  Proof. intros E w H. inversion H; subst; congruence. Qed.
  Lemma not_tr t : (forall fs, reg t <> ResTy (TComposite fs)) -> (forall ts, reg t <> ResTy (TTuple ts)) -> forall w, ~ transparent reg t w.
  Proof. intros N1 N2 w H. inversion H; subst; [eapply N1|eapply N2]; eassumption. Qed.
  Lemma ends_tr t u u' : chain (transparent reg) t u -> (forall w, ~ transparent reg u w) -> ends_in (transparent reg) t u' -> u = u'.
  Proof.
    intros H1 N1 [H2 N2]. pose proof (chain_through (transparent reg) (fun _ _ h => h) tr_det _ _ H1 _ H2 N2) as H. inversion H as [|? ? ? S]; subst; [reflexivity|]. exfalso. eapply N1, S.
  Qed.
  Lemma wraps_through t u v : chain (transparent reg) t u -> chain (wraps reg) t v -> (forall w, ~ transparent reg v w) -> chain (wraps reg) u v.
  Proof. intros H1 H2 N. eapply (chain_through (wraps reg)); [intros ? ? h; apply W_one, tr_wraps1, h|exact wraps_det|eassumption..]. Qed.
  Lemma wraps1_through t u v : chain (transparent reg) t u -> chain (wraps1 reg) t v -> (forall w, ~ transparent reg v w) -> chain (wraps1 reg) u v.
  Proof. intros H1 H2 N. eapply (chain_through (wraps1 reg)); [exact tr_wraps1|exact wraps1_det|eassumption..]. Qed.
  Lemma wraps_end_tr u : (forall w, ~ wraps reg u w) -> forall w, ~ transparent reg u w.
  Proof. intros H w T. eapply H, W_one, tr_wraps1, T. Qed.
  (** Every chain of newtypes ends. *)
  Lemma end_exists (WF : finite_wrappers reg) t : exists u, ends_in (transparent reg) t u.
  Proof.
    induction (WF t) as [t _ IH].
    destruct (reg t) as [| |[fs|vs|t'|t' n|ts|p|t'|st o]] eqn:E; try (exists t; split; [apply Ch_refl|apply not_tr; intros ? E2; congruence]).
    - destruct fs as [|[[n|] t'] [|f fs]]; try (exists t; split; [apply Ch_refl|intros w H; inversion H; subst; congruence]).
      assert (S : transparent reg t t') by (eapply Tr_struct; exact E). destruct (IH t' (W_one _ _ _ (tr_wraps1 _ _ S))) as (u & H1 & H2). exists u. split; [eapply Ch_step; eassumption|exact H2].
    - destruct ts as [|t' [|f ts]]; try (exists t; split; [apply Ch_refl|intros w H; inversion H; subst; congruence]).
      assert (S : transparent reg t t') by (eapply Tr_tuple; exact E). destruct (IH t' (W_one _ _ _ (tr_wraps1 _ _ S))) as (u & H1 & H2). exists u. split; [eapply Ch_step; eassumption|exact H2].
  Qed.

  (** ** What goes to a newtype goes to its content *)
  Lemma number_through z t u b : chain (transparent reg) t u -> number reg z t b -> number reg z u b.
  Proof.
    intros Ch H. inversion H; subst.
    - eapply N_uint; [eapply wraps_through; [exact Ch|eassumption|eapply not_tr_prim; eassumption]|eassumption..].
    - eapply N_int; [eapply wraps_through; [exact Ch|eassumption|eapply not_tr_prim; eassumption]|eassumption..].
    - eapply N_compact; [eapply wraps_through; [exact Ch|eassumption|apply not_tr; intros; congruence]|eassumption..].
  Qed.
  Lemma leaf_through_tr d t u b : chain (transparent reg) t u -> leaf reg X (d : vdef (value C)) t b -> leaf reg X d u b.
  Proof.
    intros Ch H. inversion H; subst; try match goal with HC : chain (wraps reg) t ?v, HR : reg ?v = ResTy _ |- _ => apply (wraps_through t u v Ch) in HC; [|apply not_tr; intros; congruence] end.
    - eapply L_number; [eassumption|eapply number_through; eassumption].
    - eapply L_code, number_through; eassumption.
    - eapply L_char; eassumption.
    - eapply L_bool; eassumption.
    - eapply L_string; eassumption.
    - eapply L_bits; eassumption.
    - match goal with HC : chain (wraps1 reg) t ?v, HR : _ \/ _ |- _ => apply (wraps1_through t u v Ch) in HC; [|apply not_tr; intros; destruct HR; congruence] end. eapply L_256; eassumption.
    - match goal with HC : chain (wraps1 reg) t ?v, HR : reg ?v = ResTy _ |- _ => apply (wraps1_through t u v Ch) in HC; [|apply not_tr; intros; congruence] end. eapply L_256_array; solve [eassumption|reflexivity].
    - match goal with HC : chain (wraps1 reg) t ?v, HR : reg ?v = ResTy _ |- _ => apply (wraps1_through t u v Ch) in HC; [|apply not_tr; intros; congruence] end. eapply L_256_sequence; eassumption.
  Qed.
  Lemma variant_through (Wr : value C -> TId -> bytes -> Prop) n c t u b : chain (transparent reg) t u -> variant reg Wr n c t b -> variant reg Wr n c u b.
  Proof.
    intros Ch (u' & l1 & idx & fs & l2 & b' & C' & R & H). exists u', l1, idx, fs, l2, b'. split; [|split; [exact R|exact H]].
    eapply (chain_through (transparent reg) (fun _ _ h => h) tr_det); [exact Ch|exact C'|apply not_tr; intros; congruence].
  Qed.

  Definition listed (u : TId) : Prop := (exists e, reg u = ResTy (TSequence e)) \/ exists e, reg u = ResTy (TArray e 1).

  (** The rules for a composite taken as it is, by the kind of the type. *)
  Lemma directly_at (Wr : value C -> TId -> bytes -> Prop) c u b : directly reg Wr c u b ->
    match reg u with
    | ResTy (TComposite _) | ResTy (TTuple _) => exists u', ends_in (transparent reg) u u' /\ struct_like reg Wr c u' b
    | ResTy (TSequence _) => True
    | ResTy (TArray e n) => N.of_nat (length (values c)) = n
    | ResTy (TBitSeq _ _) => exists bits, Forall2 is_bit (values c) bits
    | ResErr => False
    | _ => exists v, values c = [v] /\ Wr v u b
    end.
  Proof.
    intro H. inversion H as [u' T E SL|e pre bs R|e n R L|st o bits R FB|v O EV HW]; subst.
    - destruct T as [[fs ->]|[ts ->]]; eauto.
    - rewrite R. exact I.
    - rewrite R. reflexivity.
    - rewrite R. eauto.
    - destruct O as [-> |[[? ->]|[[? ->]|[? ->]]]]; eauto.
  Qed.
  Lemma inside_directly (Wr : value C -> TId -> bytes -> Prop) c u b : (forall w, ~ transparent reg u w) -> ~ listed u -> struct_like reg Wr c u b ->
    directly reg Wr c u b \/ (exists v, values c = [v] /\ Wr v u b /\ ((exists e n, reg u = ResTy (TArray e n) /\ n <> 1) \/ exists st o, reg u = ResTy (TBitSeq st o))).
  Proof.
    intros N NL H. assert (TO : (exists fs, reg u = ResTy (TComposite fs)) \/ (exists ts, reg u = ResTy (TTuple ts)) -> directly reg Wr c u b).
    { intro S. eapply D_struct; [exact S|split; [apply Ch_refl|exact N]|exact H]. }
    assert (ONE : reg u <> ResErr -> (forall fs, reg u <> ResTy (TComposite fs)) -> (forall ts, reg u <> ResTy (TTuple ts)) -> exists v, values c = [v] /\ Wr v u b).
    { intros N0 N1 N2. inversion H as [fs R|ts R|fs v R|v NE NS EV HW]; subst; [exfalso; eapply N1, R|exfalso; eapply N2, R|exfalso; eapply N1, R|eauto]. }
    assert (NE : reg u <> ResErr) by (inversion H; subst; congruence).
    destruct (reg u) as [| |ty] eqn:E; [congruence| |].
    { destruct ONE as (v & EV & HW); [discriminate..|]. left. eapply D_one; eauto. }
    destruct ty as [fs|vs|t'|t' n|ts|p|t'|st o]; try (left; apply TO; eauto; fail); destruct ONE as (v & EV & HW); try discriminate.
    - left. eapply D_one; eauto.
    - exfalso. apply NL. left. eauto.
    - right. exists v. split; [exact EV|]. split; [exact HW|]. left. exists t', n. split; [reflexivity|]. intros ->. apply NL. right. eauto.
    - left. eapply D_one; eauto 6.
    - left. eapply D_one; eauto 8.
    - right. exists v. split; [exact EV|]. split; [exact HW|]. right. eauto.
  Qed.
  Lemma no_wraps_array u e n : reg u = ResTy (TArray e n) -> n <> 1 -> forall w, ~ wraps reg u w.
  Proof. intros E N w H. inversion H as [? ? A|? ? A]; subst; [inversion A; subst; congruence|congruence]. Qed.
  Lemma no_wraps_bits u st o : reg u = ResTy (TBitSeq st o) -> forall w, ~ wraps reg u w.
  Proof. intros E w H. inversion H as [? ? A|? ? A]; subst; [inversion A; subst; congruence|congruence]. Qed.
  Lemma chain_stop (R : TId -> TId -> Prop) t u : chain R t u -> (forall w, ~ R t w) -> t = u.
  Proof. intros H N. inversion H as [|? ? ? S]; subst; [reflexivity|]. exfalso. eapply N, S. Qed.
  Lemma bit_not_bits v b0 st o u : reg u = ResTy (TBitSeq st o) -> is_bit v b0 -> ~ fits (T := C) reg X v u.
  Proof.
    intros R HB HF. pose proof (no_wraps_bits _ _ _ R) as NW.
    assert (NN : forall z b, ~ number reg z u b).
    { intros z b H. inversion H; subst; match goal with H : chain (wraps reg) u ?z |- _ => apply chain_stop in H; [subst z; congruence|exact NW] end. }
    inversion HB; subst; inversion HF as [d y ? ? L| | | |]; subst; inversion L; subst; try discriminate; try (eapply NN; eassumption).
    match goal with H : chain (wraps reg) u ?z |- _ => apply chain_stop in H; [subst z; congruence|exact NW] end.
  Qed.
  Lemma not_direct_array c v u e n : reg u = ResTy (TArray e n) -> n <> 1 -> values c = [v] -> ~ fits_directly (T := C) reg X c u.
  Proof. intros R N V (b & H). apply directly_at in H. rewrite R, V in H. cbn [length] in H. apply N. rewrite <- H. reflexivity. Qed.
  Lemma not_direct_bits c v u st o : reg u = ResTy (TBitSeq st o) -> values c = [v] -> fits reg X v u -> ~ fits_directly (T := C) reg X c u.
  Proof.
    intros R V F (b & H). apply directly_at in H. rewrite R, V in H. destruct H as [bits H]. inversion H; subst. eapply bit_not_bits; eassumption.
  Qed.

  (** What can be written [fits] (C77). *)
  Context (FITS : forall (v : value C) t b, W v t b -> fits reg X v t).

  Theorem through t1 u (w : value C) b : ends_in (transparent reg) t1 u -> (t1 = u \/ ~ listed u) -> W w t1 b -> W w u b.
  Proof.
    intros [Ch N] [<-|NL] H; [exact H|]. inversion Ch as [|? t2 ? S C2]; [subst; exact H|]. subst.
    assert (TS : (exists fs, reg t1 = ResTy (TComposite fs)) \/ (exists ts, reg t1 = ResTy (TTuple ts))) by (inversion S; eauto).
    assert (DIR : forall Wr c b0, directly reg Wr c t1 b0 -> struct_like reg Wr (c : composite (value C)) u b0).
    { intros Wr c b0 D. apply directly_at in D. assert (D' : exists u', ends_in (transparent reg) t1 u' /\ struct_like reg Wr c u' b0) by (destruct TS as [[? TS]|[? TS]]; rewrite TS in D; exact D).
      destruct D' as (u' & E & SL). rewrite <- (ends_tr _ _ _ Ch N E) in SL. exact SL. }
    assert (RID : forall Wr c b0, struct_like reg Wr (c : composite (value C)) u b0 -> directly reg Wr c t1 b0).
    { intros Wr c b0 SL. eapply D_struct; [exact TS|split; [exact Ch|exact N]|exact SL]. }
    assert (KINDS : (forall w, ~ wraps reg u w) \/ forall c : composite (value C), fits_directly reg X c u -> fits_directly reg X c t1).
    { assert (ONE : forall c v (b0 : bytes), reg u <> ResErr -> (forall fs, reg u <> ResTy (TComposite fs)) -> values c = [v] -> fits reg X v u -> fits_directly (T := C) reg X c t1).
      { intros c v b0 E1 E2 EV F. exists b0. apply RID. eapply S_other_one; eassumption. }
      assert (STR : forall c b0 u', ends_in (transparent reg) u u' -> struct_like reg FW c u' b0 -> fits_directly (T := C) reg X c t1).
      { intros c b0 u' E SL. exists b0. apply RID. rewrite <- (ends_tr u u u' (Ch_refl _ _) N E) in SL. exact SL. }
      destruct (reg u) as [| |[fs|vs|t'|t' n|ts|p|t'|st o]] eqn:R.
      all: try (right; intros c (b0 & F); apply directly_at in F; rewrite R in F; first [contradiction|destruct F as (u' & E & SL); eapply STR; eassumption
        |destruct F as (v & EV & F); eapply (ONE c v b0); [discriminate|discriminate|exact EV|exact F]]).
      - exfalso. apply NL. left. eauto.
      - left. eapply no_wraps_array; [exact R|]. intros ->. apply NL. right. eauto.
      - left. eapply no_wraps_bits; exact R. }
    inversion H as [d x ? ? L|n c x ? ? V|c x ? ? D|c x ? u2 ? E ND D|c x ? u2 v ? E ND1 ND2 EV HW]; subst.
    - eapply Wr_leaf, leaf_through_tr; [exact Ch|exact L].
    - eapply Wr_variant, variant_through; [exact Ch|exact V].
    - apply DIR in D. destruct (inside_directly _ _ _ _ N NL D) as [D'|(v & EV & HW & [(e & n & R & Hn)|(st & o & R)])]; [apply Wr_directly, D'| |].
      + eapply (Wr_one _ _ c x u u); [split; [apply Ch_refl|eapply no_wraps_array; eassumption]|eapply not_direct_array; eassumption|eapply not_direct_array; eassumption|exact EV|exact HW].
      + assert (~ fits_directly (T := C) reg X c u) by (eapply not_direct_bits; [exact R|exact EV|eapply FITS, HW]).
        eapply (Wr_one _ _ c x u u); [split; [apply Ch_refl|eapply no_wraps_bits; eassumption]|assumption|assumption|exact EV|exact HW].
    - destruct E as [E1 E2]. assert (C' : chain (wraps reg) u u2) by (eapply wraps_through; [exact Ch|exact E1|apply wraps_end_tr, E2]).
      destruct KINDS as [K|K].
      + apply chain_stop in C'; [|exact K]. subst u2. apply Wr_directly, D.
      + eapply Wr_inside; [split; [exact C'|exact E2]|intro F; apply ND, K, F|exact D].
    - destruct E as [E1 E2]. assert (C' : chain (wraps reg) u u2) by (eapply wraps_through; [exact Ch|exact E1|apply wraps_end_tr, E2]).
      destruct KINDS as [K|K].
      + apply chain_stop in C'; [|exact K]. subst u2. eapply Wr_one; [split; [apply Ch_refl|exact K]|exact ND2|exact ND2|exact EV|exact HW].
      + eapply Wr_one; [split; [exact C'|exact E2]|intro F; apply ND1, K, F|exact ND2|exact EV|exact HW].
  Qed.

  (** ** The edit *)
  Context (mb : N) (ctxf : TId -> C).
  Local Notation ENC := (enc reg mb 32 ctxf PU256 true).
  Local Notation ENCS := (encs reg mb 32 ctxf PU256 true).
  (** Decoded values can be written (C24). *)
  Context (NAT : forall t v b, ENC false t v b -> W v t b).

  Lemma encs_turn ts vs b : ENCS false ts vs b -> in_turn W vs ts b.
  Proof. revert vs b. induction ts as [|t ts IH]; intros vs b H; inversion H; subst; constructor; auto. Qed.
  Lemma turn_one v vs t b : in_turn W (v :: vs) [t] b -> vs = [] /\ W v t b.
  Proof. intro H. inversion H as [|? ? ? ? b0 bs HW H2]; subst. inversion H2; subst. rewrite app_nil_r. auto. Qed.
  (** Items in turn with one of them replaced. *)
  Lemma turn_at l1 x l2 : forall ts bs ti, ENCS false ts (l1 ++ x :: l2) bs -> nth_error ts (length l1) = Some ti ->
    exists b1 b b2, bs = b1 ++ b ++ b2 /\ ENC false ti x b /\ (forall x' b', W x' ti b' -> in_turn W (l1 ++ x' :: l2) ts (b1 ++ b' ++ b2)) /\
      (forall x' b', ENC false ti x' b' -> ENCS false ts (l1 ++ x' :: l2) (b1 ++ b' ++ b2)).
  Proof.
    induction l1 as [|y l1 IH]; intros ts bs ti H N; inversion H; subst; cbn [length nth_error app] in *.
    - injection N as ->. exists [], b, bs0. split; [reflexivity|]. split; [assumption|]. cbn [app]. split; intros x' b' E; constructor; [exact E|apply encs_turn; assumption|exact E|assumption].
    - match goal with H : encs _ _ _ _ _ _ _ ?ts0 (l1 ++ x :: l2) _ |- _ => apply (IH ts0 _ ti H) in N as (b1 & b0 & b2 & -> & E & K & K') end.
      exists (b ++ b1), b0, b2. rewrite <- app_assoc. split; [reflexivity|]. split; [exact E|]. split; intros x' b' E'; rewrite <- app_assoc; (constructor; [|solve [apply K, E'|apply K', E']]); [apply NAT|]; assumption.
  Qed.

  Lemma f2_last (kvs : list (str * value C)) (fs : list (field TId)) : map fst fs = map (fun kv => Some (fst kv)) kvs -> NoDup (map fst fs) ->
    Forall2 (fun (f : field TId) v => last_entry kvs (name_of f) v) fs (map snd kvs).
  Proof.
    intros E ND. rewrite E in ND.
    assert (G : forall l1 l2 gs, kvs = l1 ++ l2 -> map fst gs = map (fun kv : str * value C => Some (fst kv)) l2 -> Forall2 (fun (f : field TId) v => last_entry kvs (name_of f) v) gs (map snd l2)).
    { intros l1 l2. revert l1. induction l2 as [|[k v] l2 IH]; intros l1 gs EK EG; destruct gs as [|[n t] gs]; cbn [map fst snd] in *; try discriminate; [constructor|].
      injection EG as EN EG. subst n. constructor; [|apply (IH (l1 ++ [(k, v)])); [rewrite <- app_assoc; exact EK|exact EG]].
      change (last_entry kvs k v). exists l1, l2. split; [exact EK|]. rewrite EK in ND. rewrite map_app in ND. cbn [map fst] in ND. apply NoDup_remove_2 in ND. intro HI. apply ND, in_or_app. right.
      apply in_map_iff in HI as (kv & <- & HI). apply in_map_iff. exists kv. auto. }
    exact (G [] kvs fs eq_refl E).
  Qed.
  Lemma fields_of (fs : list (field TId)) (c : composite (value C)) b : fields_shape (map fst fs) (values c) c -> names_ok fs -> in_turn W (values c) (map snd fs) b -> fields W c fs b.
  Proof.
    intros SH NO H. inversion SH as [kvs NK E1 E2 E3|names vs L D E1 E2 E3]; subst.
    - cbn [values] in H. eapply F_by_name; [exact NK| |apply f2_last; [symmetry; exact E1|]|exact H].
      + destruct kvs as [|[k v] kvs]; [contradiction|]. destruct fs as [|[n t] fs]; [discriminate|]. injection E1 as E1 _. exists (n, t). split; [left; reflexivity|]. cbn [fst]. congruence.
      + apply NO. rewrite <- E1. intro HI. apply in_map_iff in HI as (? & HI & _). discriminate.
    - apply F_by_position; [discriminate|exact H].
  Qed.

  Context (ND : variant_names_differ reg) (WF : finite_wrappers reg) (NL : no_nested_lists reg).
  Context (FN : forall t fs, reg t = ResTy (TComposite fs) -> names_ok fs) (VN : forall t vs, reg t = ResTy (TVariant vs) -> Forall (fun v => names_ok (vi_fields v)) vs).

  (** A type with encodings is there, and so is what is inside it. *)
  Lemma enc_there c t v b : ENC c t v b -> exists ty, reg t = ResTy ty.
  Proof. intro H. inversion H; subst; eauto. Qed.
  Lemma enc_inside t u : chain (transparent reg) t u -> forall v b, ENC false t v b -> exists ty, reg u = ResTy ty.
  Proof.
    induction 1 as [t|t t' u S H IH]; intros v b E; [eapply enc_there, E|].
    assert (exists v' b', ENC false t' v' b') as (v' & b' & E'); [|eapply IH, E'].
    inversion S as [? ? R|? ? R]; subst; inversion E; subst; try congruence.
    - match goal with H : reg t = ResTy (TComposite ?f) |- _ => rewrite R in H; injection H as <- end. match goal with H : encs _ _ _ _ _ _ _ _ _ _ |- _ => cbn [map snd] in H; inversion H; subst; eauto end.
    - match goal with H : reg t = ResTy (TTuple ?f) |- _ => rewrite R in H; injection H as <- end. match goal with H : encs _ _ _ _ _ _ _ _ _ _ |- _ => inversion H; subst; eauto end.
  Qed.
  (** A newtype around something that can be written as its content. *)
  Lemma wrap_newtype t ti x b0 (x' : value C) y b' : transparent reg t ti -> ENC false ti x b0 -> W x' ti b' -> W (Val (DComposite (Unnamed [x'])) y) t b'.
  Proof.
    intros S E H. destruct (end_exists WF ti) as (u & Ch & N). destruct (enc_inside _ _ Ch _ _ E) as (ty & RU).
    assert (HU : W x' u b').
    { eapply through; [split; [exact Ch|exact N]| |exact H]. inversion Ch as [|? t2 ? S2 C2]; [left; reflexivity|subst]. right.
      intros [[e L]|[e L]]; destruct (NL _ _ _ _ e S S2 C2) as [N1 N2]; [exact (N1 L)|exact (N2 L)]. }
    apply Wr_directly. eapply (D_struct _ _ _ _ _ u); [inversion S; eauto|split; [eapply Ch_step; eassumption|exact N]|].
    assert (D : (exists fs, reg u = ResTy (TComposite fs)) \/ forall fs, reg u <> ResTy (TComposite fs)) by (rewrite RU; destruct ty; [left; eauto|right; discriminate..]).
    destruct D as [[fs D]|D]; [eapply S_struct_one; [exact D|reflexivity|exact HU]|eapply S_other_one; [rewrite RU; discriminate|exact D|reflexivity|exact HU]].
  Qed.

  (** The values of a composite in which one is replaced. *)
  Lemma replaced_next (c c2 : composite (value C)) (l1 l2 : list (value C)) x x2 : values c = l1 ++ x :: l2 -> replaced c c2 (length l1) x x2 ->
    values c2 = l1 ++ x2 :: l2 /\ (forall names vs, fields_shape names vs c -> fields_shape names (values c2) c2) /\ (forall vs, c = Unnamed vs -> c2 = Unnamed (values c2)).
  Proof.
    assert (AI : forall a (a1 a2 b1 b2 : list (value C)), length a1 = length a2 -> a = a1 ++ b1 -> a = a2 ++ b2 -> a1 = a2 /\ b1 = b2).
    { clear. intros a a1. revert a. induction a1 as [|z a1 IH]; intros a [|z' a2] b1 b2 L E1 E2; try discriminate; subst a; cbn [app] in E2; [auto|].
      injection E2 as -> E2. edestruct (IH (a1 ++ b1) a2 b1 b2) as [-> ->]; auto. }
    intros V H. apply replaced_values in H as (m1 & m2 & L' & V1 & V2 & SH & UN). destruct (AI _ l1 m1 _ _ ltac:(congruence) V V1) as [-> E]. injection E as ->. auto.
  Qed.
  Lemma replaced_where (c c' : composite (value C)) i x x' : replaced c c' i x x' -> exists l1 l2, length l1 = i /\ values c = l1 ++ x :: l2.
  Proof. intro H. apply replaced_values in H as (l1 & l2 & L & V & _). eauto. Qed.

  Lemma mid_eq (a : list (value C)) l1 m1 l2 m2 x1 x : a = l1 ++ x :: l2 -> a = m1 ++ x1 :: m2 -> length m1 = length l1 -> x1 = x.
  Proof.
    intros E1 E2 L. assert (nth_error a (length l1) = Some x) by (rewrite E1, nth_error_app2, Nat.sub_diag by lia; reflexivity).
    assert (nth_error a (length m1) = Some x1) by (rewrite E2, nth_error_app2, Nat.sub_diag by lia; reflexivity). congruence.
  Qed.

  Lemma swap_comp_inv i p u w (c : composite (value C)) y v' : swap (i :: p) u w (Val (DComposite c) y) v' ->
    exists c' x x', v' = Val (DComposite c') y /\ replaced c c' i x x' /\ swap p u w x x'.
  Proof. inversion 1; subst. eauto 6. Qed.
  Lemma swap_var_inv i p u w n (c : composite (value C)) y v' : swap (i :: p) u w (Val (DVariant n c) y) v' ->
    exists c' x x', v' = Val (DVariant n c') y /\ replaced c c' i x x' /\ swap p u w x x'.
  Proof. inversion 1; subst. eauto 6. Qed.

  Ltac same R := match goal with H : reg ?t = _ |- _ => lazymatch H with R => fail | _ => rewrite R in H; first [discriminate H | injection H; clear H; intros; subst] end end.
  Theorem edit_writes t t' u w0 v v0 : edit reg t t' u w0 v v0 -> exists p, swap p u w0 v v0 /\ forall bs, ENC false t v bs ->
    exists pre old post, bs = pre ++ old ++ post /\ ENC false t' u old /\ forall w v', swap p u w v v' ->
      edit reg t t' u w v v' /\ (forall new, W w t' new -> W v' t (pre ++ new ++ post)) /\ (forall new, ENC false t' w new -> ENC false t v' (pre ++ new ++ post)).
  Proof.
    induction 1 as [t u w|t fs i n ti c c' x x' y t' u w R N RE ED IH|t ts i ti c c' x x' y t' u w R N RE ED IH|t vs name idx fs i n ti c c' x x' y t' u w R HV N RE ED IH
                   |t ti i c c' x x' y t' u w R RE ED IH|t ti n i c c' x x' y t' u w R RE ED IH].
    { exists []. split; [constructor|]. intros bs E. exists [], bs, []. rewrite app_nil_r. split; [reflexivity|]. split; [exact E|].
      intros w' v' S. inversion S; subst. cbn [app]. split; [constructor|]. split; intros new H; rewrite app_nil_r; exact H. }
    all: destruct IH as (p & SW & IH); exists (i :: p); (split; [econstructor; eassumption|]); intros bs E; apply replaced_where in RE as (l1 & l2 & <- & V1); clear SW ED c' x' w.
    - inversion E; subst; same R. match type of N with nth_error ?g _ = _ => rename g into fz end.
      match goal with H : fields_shape _ ?vs0 c |- _ => pose proof (shape_vals _ _ _ H) as SV; subst vs0; rename H into SH0 end.
      match goal with HE : encs _ _ _ _ _ _ _ _ (values c) bs |- _ => rewrite V1 in HE; apply (turn_at _ _ _ _ _ ti) in HE as (b1 & b & b2 & EB & EX & K & K');
        [|rewrite nth_error_map, N; reflexivity] end.
      destruct (IH _ EX) as (pre & old & post & -> & EU & KU). subst bs. exists (b1 ++ pre), old, (post ++ b2). split; [now rewrite <- !app_assoc|]. split; [exact EU|].
      intros w v' S. apply swap_comp_inv in S as (c' & x1 & x' & -> & RE & SW). pose proof RE as RE0. assert (x1 = x) as -> by (apply replaced_where in RE0 as (m1 & m2 & LM & VM); exact (mid_eq _ _ _ _ _ _ _ V1 VM LM)).
      destruct (KU _ _ SW) as (ED & KW & KE). destruct (replaced_next _ _ _ _ _ _ V1 RE) as (V2 & SH & UN). apply SH in SH0 as SH1.
      split; [eapply Edit_struct; eassumption|]. split; intros new HN.
      + replace ((b1 ++ pre) ++ new ++ post ++ b2) with (b1 ++ (pre ++ new ++ post) ++ b2) by now rewrite <- !app_assoc. apply KW in HN as WX.
        assert (D : (exists a, fz = [(None, a)]) \/ forall w, ~ transparent reg t w).
        { destruct fz as [|[[m|] a] [|f fz]]; eauto; right; intros w0' TR; inversion TR; subst; congruence. }
        destruct D as [[a ->]|D].
        * destruct (length l1) as [|[|]] eqn:L1; cbn [nth_error] in N; [|discriminate..]. injection N as <- ->. destruct l1; [|discriminate]. apply K in WX. cbn [app map snd] in WX.
          apply turn_one in WX as [-> WB].
          cbn [app] in V2. rewrite V2 in SH1. inversion SH1 as [kvs NK E1 E2 E3|]; subst; [destruct kvs as [|? [|]]; discriminate|].
          eapply wrap_newtype; [eapply Tr_struct, R|exact EX|exact WB].
        * apply K in WX. rewrite <- V2 in WX. apply Wr_directly. eapply (D_struct _ _ _ _ _ t); [eauto|split; [apply Ch_refl|exact D]|].
          eapply S_struct; [exact R| |eapply fields_of; [exact SH1|eapply FN, R|exact WX]].
          intros vx ->. cbn [values] in *. inversion SH1 as [|names vs0 L D' E1 E2 E3]; subst. destruct D' as [D'|D']; [rewrite D' in L; discriminate|]. cbn [length] in L.
          destruct fz as [|[[m|] a] [|f fz]]; cbn [map fst length] in *; try discriminate; [destruct D' as [D'|[]]; discriminate|]. eapply D, Tr_struct, R.
      + replace ((b1 ++ pre) ++ new ++ post ++ b2) with (b1 ++ (pre ++ new ++ post) ++ b2) by now rewrite <- !app_assoc. apply KE, K' in HN. rewrite <- V2 in HN.
        eapply E_composite; [exact R|discriminate|exact HN|exact SH1].
    - inversion E; subst; same R. match type of N with nth_error ?g _ = _ => rename g into tz end. cbn [values] in V1.
      match goal with HE : encs _ _ _ _ _ _ _ _ _ bs |- _ => rewrite V1 in HE; apply (turn_at _ _ _ _ _ ti) in HE as (b1 & b & b2 & EB & EX & K & K'); [|exact N] end.
      destruct (IH _ EX) as (pre & old & post & -> & EU & KU). subst bs. exists (b1 ++ pre), old, (post ++ b2). split; [now rewrite <- !app_assoc|]. split; [exact EU|].
      intros w v' S. apply swap_comp_inv in S as (c' & x1 & x' & -> & RE & SW). pose proof RE as RE0. assert (x1 = x) as -> by (apply replaced_where in RE0 as (m1 & m2 & LM & VM); cbn [values] in VM; exact (mid_eq _ _ _ _ _ _ _ V1 VM LM)).
      destruct (KU _ _ SW) as (ED & KW & KE). destruct (replaced_next (Unnamed _) _ _ _ _ _ V1 RE) as (V2 & _ & UN). specialize (UN _ eq_refl).
      split; [eapply Edit_tuple; eassumption|]. split; intros new HN.
      + replace ((b1 ++ pre) ++ new ++ post ++ b2) with (b1 ++ (pre ++ new ++ post) ++ b2) by now rewrite <- !app_assoc. apply KW in HN as WX.
        assert (D : (exists a, tz = [a]) \/ (length tz <> 1%nat /\ forall w, ~ transparent reg t w)).
        { destruct tz as [|a [|f tz]]; eauto; right; (split; [discriminate|]); intros w0' TR; inversion TR; subst; congruence. }
        destruct D as [[a ->]|[LT D]].
        * destruct (length l1) as [|[|]] eqn:L1; cbn [nth_error] in N; [|discriminate..]. injection N as ->. destruct l1; [|discriminate]. apply K in WX. cbn [app] in WX.
          apply turn_one in WX as [-> WB].
          cbn [app] in V2. rewrite UN, V2. eapply wrap_newtype; [eapply Tr_tuple, R|exact EX|exact WB].
        * apply K in WX. rewrite <- V2 in WX. apply Wr_directly. eapply (D_struct _ _ _ _ _ t); [eauto|split; [apply Ch_refl|exact D]|].
          assert (LV : length (values c') = length tz) by (clear - WX; induction WX; cbn [length]; congruence).
          eapply S_tuple; [exact R|congruence|]. apply F_by_position; [rewrite UN; discriminate|]. rewrite map_map, map_id. exact WX.
      + replace ((b1 ++ pre) ++ new ++ post ++ b2) with (b1 ++ (pre ++ new ++ post) ++ b2) by now rewrite <- !app_assoc. apply KE, K' in HN. rewrite <- V2 in HN.
        rewrite UN. eapply E_tuple; [exact R|discriminate|exact HN].
    - inversion E; subst; [same R|]. match goal with H : reg t = ResTy (TVariant (?a ++ VInfo name ?k ?f :: ?b)) |- _ =>
        assert (EQ : VInfo name k f = VInfo name idx fs); [assert (EV : vs = a ++ VInfo name k f :: b) by congruence; subst vs; pose proof (ND _ _ R) as NDN|rename a into va; rename b into vb] end.
      { rewrite map_app in NDN. cbn [map vi_name] in NDN. apply in_app_or in HV as [HV|[HV|HV]]; [|exact HV|]; exfalso; apply NoDup_remove_2 in NDN; apply NDN, in_or_app;
          [left|right]; apply in_map_iff; exists (VInfo name idx fs); (split; [reflexivity|exact HV]). }
      injection EQ as -> ->. match goal with H : reg t = ResTy (TVariant (va ++ _)) |- _ => rename H into RV end.
      assert (NM : ~ In name (map vi_name va)).
      { pose proof (ND _ _ RV) as NDN. rewrite map_app in NDN. cbn [map vi_name] in NDN. apply NoDup_remove_2 in NDN. intro HI. apply NDN, in_or_app. left. exact HI. }
      assert (NO : names_ok fs).
      { pose proof (VN _ _ RV) as HF. rewrite Forall_forall in HF. apply (HF (VInfo name idx fs)). apply in_or_app. right. left. reflexivity. }
      match goal with H : fields_shape _ ?vs0 c |- _ => pose proof (shape_vals _ _ _ H) as SV; subst vs0; rename H into SH0 end.
      match goal with HE : encs _ _ _ _ _ _ _ _ (values c) ?bb |- _ => rename bb into tail; rewrite V1 in HE; apply (turn_at _ _ _ _ _ ti) in HE as (b1 & b & b2 & EB & EX & K & K');
        [|rewrite nth_error_map, N; reflexivity] end.
      destruct (IH _ EX) as (pre & old & post & -> & EU & KU). subst tail. exists (idx :: b1 ++ pre), old, (post ++ b2). split; [cbn [app]; now rewrite <- !app_assoc|]. split; [exact EU|].
      intros w v' S. apply swap_var_inv in S as (c' & x1 & x' & -> & RE & SW). pose proof RE as RE0. assert (x1 = x) as -> by (apply replaced_where in RE0 as (m1 & m2 & LM & VM); exact (mid_eq _ _ _ _ _ _ _ V1 VM LM)).
      destruct (KU _ _ SW) as (ED & KW & KE). destruct (replaced_next _ _ _ _ _ _ V1 RE) as (V2 & SH & _).
      split; [eapply Edit_variant; [exact R|exact HV|exact N|exact RE|exact ED]|]. split; intros new HN.
      all: replace ((idx :: b1 ++ pre) ++ new ++ post ++ b2) with (idx :: b1 ++ (pre ++ new ++ post) ++ b2) by (cbn [app]; now rewrite <- !app_assoc).
      + apply KW, K in HN. rewrite <- V2 in HN. eapply Wr_variant. exists t, va, idx, fs, vb. eexists. split; [apply Ch_refl|]. split; [exact RV|]. split; [exact NM|]. split; [reflexivity|].
        eapply fields_of; [eapply SH, SH0|exact NO|exact HN].
      + apply KE, K' in HN. rewrite <- V2 in HN. eapply E_variant; [exact RV|assumption|assumption|exact HN|eapply SH, SH0].
    - inversion E; subst; same R. match goal with H : compact_enc _ ?p, HR : reg t = ResTy (TSequence ?e) |- _ => rename p into pfx; rename H into PF; rename e into et end. cbn [values] in V1.
      match goal with HE : encs _ _ _ _ _ _ _ (repeat et _) vs ?bb |- _ => rename bb into tail; rewrite V1 in HE at 2; apply (turn_at _ _ _ _ _ et) in HE as (b1 & b & b2 & EB & EX & K & K') end.
      2:{ apply nth_error_repeat. rewrite V1, app_length. cbn. lia. }
      destruct (IH _ EX) as (pre & old & post & -> & EU & KU). subst tail. exists (pfx ++ b1 ++ pre), old, (post ++ b2). split; [now rewrite <- !app_assoc|]. split; [exact EU|].
      intros w v' S. apply swap_comp_inv in S as (c' & x1 & x' & -> & RE & SW). pose proof RE as RE0. assert (x1 = x) as -> by (apply replaced_where in RE0 as (m1 & m2 & LM & VM); cbn [values] in VM; exact (mid_eq _ _ _ _ _ _ _ V1 VM LM)).
      destruct (KU _ _ SW) as (ED & KW & KE). destruct (replaced_next (Unnamed _) _ _ _ _ _ V1 RE) as (V2 & _ & UN). specialize (UN _ eq_refl).
      assert (LN : length (values c') = length vs) by (rewrite V2, V1, !app_length; reflexivity).
      split; [eapply Edit_sequence; eassumption|]. split; intros new HN.
      all: replace ((pfx ++ b1 ++ pre) ++ new ++ post ++ b2) with (pfx ++ b1 ++ (pre ++ new ++ post) ++ b2) by now rewrite <- !app_assoc.
      + apply KW, K in HN. rewrite <- V2, <- LN in HN. apply Wr_directly. eapply D_sequence; [exact R| |exact HN|reflexivity].
        unfold prefix. rewrite LN, N.mod_small by assumption. exact PF.
      + apply KE, K' in HN. rewrite <- V2, <- LN in HN. rewrite UN. eapply E_sequence; [exact R|rewrite LN; assumption|rewrite LN; exact PF|exact HN].
    - inversion E; subst; same R. match goal with HR : reg t = ResTy (TArray ?e _) |- _ => rename e into et end. cbn [values] in V1.
      match goal with HE : encs _ _ _ _ _ _ _ (repeat et _) vs ?bb |- _ => rewrite V1 in HE at 2; apply (turn_at _ _ _ _ _ et) in HE as (b1 & b & b2 & EB & EX & K & K') end.
      2:{ apply nth_error_repeat. rewrite V1, app_length. cbn. lia. }
      destruct (IH _ EX) as (pre & old & post & -> & EU & KU). subst bs. exists (b1 ++ pre), old, (post ++ b2). split; [now rewrite <- !app_assoc|]. split; [exact EU|].
      intros w v' S. apply swap_comp_inv in S as (c' & x1 & x' & -> & RE & SW). pose proof RE as RE0. assert (x1 = x) as -> by (apply replaced_where in RE0 as (m1 & m2 & LM & VM); cbn [values] in VM; exact (mid_eq _ _ _ _ _ _ _ V1 VM LM)).
      destruct (KU _ _ SW) as (ED & KW & KE). destruct (replaced_next (Unnamed _) _ _ _ _ _ V1 RE) as (V2 & _ & UN). specialize (UN _ eq_refl).
      assert (LN : length (values c') = length vs) by (rewrite V2, V1, !app_length; reflexivity).
      split; [eapply Edit_array; [exact R|exact RE|exact ED]|]. split; intros new HN.
      all: replace ((b1 ++ pre) ++ new ++ post ++ b2) with (b1 ++ (pre ++ new ++ post) ++ b2) by now rewrite <- !app_assoc.
      + apply KW, K in HN. rewrite <- V2, <- LN in HN. apply Wr_directly. eapply D_array; [exact R|now rewrite LN|exact HN].
      + apply KE, K' in HN. rewrite <- V2, <- LN in HN. rewrite UN. eapply E_array; [exact R|now rewrite LN|exact HN].
  Qed.
End EditAny.
