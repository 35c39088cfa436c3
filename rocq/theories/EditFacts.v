(** * EditFacts: replacing a part of a value replaces its bytes (C102). *)
From Verif Require Import Base Value ValueFacts Registry Spec_Scale Spec_Decode Spec_Edit.
Open Scope N_scope.

Section Edit.
  Context {TId C : Type} (reg : TId -> resolution TId) (mb lb : N) (ctxf : TId -> C) (tag : bytes -> prim) (strict : bool).
  Local Notation ENC := (enc reg mb lb ctxf tag strict).
  Local Notation ENCS := (encs reg mb lb ctxf tag strict).

  Lemma encs_app c ts1 vs1 b1 ts2 vs2 b2 : ENCS c ts1 vs1 b1 -> ENCS c ts2 vs2 b2 -> ENCS c (ts1 ++ ts2) (vs1 ++ vs2) (b1 ++ b2).
  Proof.
    revert vs1 b1. induction ts1 as [|t ts1 IH]; intros vs1 b1 H1 H2; inversion H1; subst; cbn [app]; [exact H2|]. rewrite <- app_assoc. constructor; [assumption|]. apply IH; assumption.
  Qed.
  Lemma encs_len c ts vs bs : ENCS c ts vs bs -> length ts = length vs.
  Proof. revert vs bs. induction ts as [|t ts IH]; intros vs bs H; inversion H; subst; cbn [length]; [reflexivity|]. f_equal. eapply IH; eassumption. Qed.
  Lemma encs_at c l1 x l2 : forall ts bs ti, ENCS c ts (l1 ++ x :: l2) bs -> nth_error ts (length l1) = Some ti ->
    exists b1 b b2, bs = b1 ++ b ++ b2 /\ ENC c ti x b /\ forall x' b', ENC c ti x' b' -> ENCS c ts (l1 ++ x' :: l2) (b1 ++ b' ++ b2).
  Proof.
    induction l1 as [|y l1 IH]; intros ts bs ti H N; inversion H; subst; cbn [length nth_error app] in *.
    - injection N as ->. exists [], b, bs0. split; [reflexivity|]. split; [assumption|]. intros x' b' E. cbn [app]. constructor; assumption.
    - match goal with H : encs _ _ _ _ _ _ _ ?ts0 (l1 ++ x :: l2) _ |- _ => apply (IH ts0 _ ti H) in N as (b1 & b0 & b2 & -> & E & K) end.
      exists (b ++ b1), b0, b2. rewrite <- app_assoc. split; [reflexivity|]. split; [exact E|]. intros x' b' E'. rewrite <- app_assoc. constructor; [assumption|]. apply K, E'.
  Qed.
  (** The values of a composite in which one is replaced; shapes stay. *)
  Lemma replaced_values (c c' : composite (value C)) i x x' : replaced c c' i x x' -> exists l1 l2, length l1 = i /\ values c = l1 ++ x :: l2 /\ values c' = l1 ++ x' :: l2 /\
    (forall names vs, fields_shape names vs c -> fields_shape names (values c') c') /\ (forall vs, c = Unnamed vs -> c' = Unnamed (values c')).
  Proof.
    intros [(l1 & k & l2 & L & -> & ->)|(l1 & l2 & L & -> & ->)]; cbn [values].
    - exists (map snd l1), (map snd l2). rewrite map_length, !map_app. cbn [map snd]. split; [exact L|]. split; [reflexivity|]. split; [reflexivity|]. split; [|discriminate].
      intros names vs H. inversion H; subst. replace (map (fun kv : str * value C => Some (fst kv)) (l1 ++ (k, x) :: l2)) with (map (fun kv : str * value C => Some (fst kv)) (l1 ++ (k, x') :: l2)) by (rewrite !map_app; reflexivity).
      replace (map snd l1 ++ x' :: map snd l2) with (map snd (l1 ++ (k, x') :: l2)) by (rewrite map_app; reflexivity).
      constructor. intro E. apply app_eq_nil in E as [_ E]. discriminate.
    - exists l1, l2. split; [exact L|]. split; [reflexivity|]. split; [reflexivity|]. split; [|reflexivity].
      intros names vs H. inversion H; subst. constructor; [|assumption]. match goal with H : length names = _ |- _ => rewrite H end. rewrite !app_length. reflexivity.
  Qed.
  Lemma shape_vals {V} names (vs : list V) c : fields_shape names vs c -> values c = vs.
  Proof. intro H. inversion H; subst; reflexivity. Qed.

  Ltac same R := match goal with H : reg ?t = _ |- _ => lazymatch H with R => fail | _ => rewrite R in H; first [discriminate H | injection H; clear H; intros; subst] end end.
  Theorem edit_enc (ND : variant_names_differ reg) t t' u w v v' : edit reg t t' u w v v' -> forall bs, ENC false t v bs ->
    exists pre old post, bs = pre ++ old ++ post /\ ENC false t' u old /\ forall new, ENC false t' w new -> ENC false t v' (pre ++ new ++ post).
  Proof.
    induction 1 as [t u w|t fs i n ti c c' x x' y t' u w R N RE ED IH|t ts i ti c c' x x' y t' u w R N RE ED IH|t vs name idx fs i n ti c c' x x' y t' u w R HV N RE ED IH
                   |t ti i c c' x x' y t' u w R RE ED IH|t ti n i c c' x x' y t' u w R RE ED IH]; intros bs E.
    - exists [], bs, []. rewrite app_nil_r. split; [reflexivity|]. split; [exact E|]. intros new H. cbn [app]. rewrite app_nil_r. exact H.
    - inversion E; subst; same R.
      apply replaced_values in RE as (l1 & l2 & <- & V1 & V2 & SH & _).
      match goal with H : fields_shape _ ?vs0 c, HE : encs _ _ _ _ _ _ _ _ ?vs0 bs |- _ => pose proof (shape_vals _ _ _ H) as SV; apply SH in H as SH'; rewrite <- SV, V1 in HE;
        apply (encs_at _ _ _ _ _ _ ti) in HE as (b1 & b & b2 & -> & EX & K) end.
      2:{ rewrite nth_error_map, N. reflexivity. }
      destruct (IH _ EX) as (pre & old & post & -> & EU & KU). exists (b1 ++ pre), old, (post ++ b2). rewrite <- !app_assoc. split; [reflexivity|]. split; [exact EU|].
      intros new HN. apply KU in HN. apply K in HN. rewrite <- V2 in HN. repeat rewrite <- app_assoc in HN. repeat rewrite <- app_assoc. eapply E_composite; eassumption.
    - inversion E; subst; same R.
      apply replaced_values in RE as (l1 & l2 & <- & V1 & V2 & _ & UN). cbn [values] in V1. specialize (UN _ eq_refl).
      match goal with HE : encs _ _ _ _ _ _ _ _ _ bs |- _ => rewrite V1 in HE; apply (encs_at _ _ _ _ _ _ ti) in HE as (b1 & b & b2 & -> & EX & K); [|exact N] end.
      destruct (IH _ EX) as (pre & old & post & -> & EU & KU). exists (b1 ++ pre), old, (post ++ b2). rewrite <- !app_assoc. split; [reflexivity|]. split; [exact EU|].
      intros new HN. apply KU in HN. apply K in HN. rewrite <- V2 in HN. repeat rewrite <- app_assoc in HN. repeat rewrite <- app_assoc. rewrite UN. eapply E_tuple; eassumption.
    - inversion E; subst; [same R|]. match goal with H : reg t = ResTy (TVariant (?a ++ VInfo name ?k ?f :: ?b)) |- _ =>
        assert (EQ : VInfo name k f = VInfo name idx fs);
        [assert (EV : vs = a ++ VInfo name k f :: b) by congruence; subst vs; specialize (ND _ _ R)|] end.
      { rewrite map_app in ND. cbn [map vi_name] in ND. apply in_app_or in HV as [HV|[HV|HV]]; [|exact HV|]; exfalso; apply NoDup_remove_2 in ND; apply ND, in_or_app;
          [left|right]; apply in_map_iff; exists (VInfo name idx fs); (split; [reflexivity|exact HV]). }
      injection EQ as -> ->.
      apply replaced_values in RE as (l1' & l2' & <- & V1 & V2 & SH & _).
      match goal with H : fields_shape _ ?vs0 c, HE : encs _ _ _ _ _ _ _ _ ?vs0 ?bb |- _ => pose proof (shape_vals _ _ _ H) as SV; apply SH in H as SH'; rewrite <- SV, V1 in HE;
        apply (encs_at _ _ _ _ _ _ ti) in HE as (b1 & b & b2 & -> & EX & K) end.
      2:{ rewrite nth_error_map, N. reflexivity. }
      destruct (IH _ EX) as (pre & old & post & -> & EU & KU). exists (idx :: b1 ++ pre), old, (post ++ b2). cbn [app]. rewrite <- !app_assoc. split; [reflexivity|]. split; [exact EU|].
      intros new HN. apply KU in HN. apply K in HN. rewrite <- V2 in HN. repeat rewrite <- app_assoc in HN. cbn [app]. rewrite <- !app_assoc. eapply E_variant; eassumption.
    - inversion E; subst; same R.
      apply replaced_values in RE as (l1 & l2 & <- & V1 & V2 & _ & UN). cbn [values] in V1. specialize (UN _ eq_refl). assert (LN : length (values c') = length vs) by (rewrite V2, V1, !app_length; reflexivity).
      match goal with HE : encs _ _ _ _ _ _ _ (repeat ?e _) vs ?bb |- _ => rewrite V1 in HE at 2; apply (encs_at _ _ _ _ _ _ e) in HE as (b1 & b & b2 & -> & EX & K) end.
      2:{ apply nth_error_repeat. rewrite V1, app_length. cbn. lia. }
      destruct (IH _ EX) as (pre0 & old & post & -> & EU & KU). exists (pre ++ b1 ++ pre0), old, (post ++ b2). rewrite <- !app_assoc. split; [reflexivity|]. split; [exact EU|].
      intros new HN. apply KU in HN. apply K in HN. rewrite <- V2, <- LN in HN. repeat rewrite <- app_assoc in HN. repeat rewrite <- app_assoc. rewrite UN. eapply E_sequence; [eassumption|rewrite LN; assumption|rewrite LN; assumption|exact HN].
    - inversion E; subst; same R.
      apply replaced_values in RE as (l1 & l2 & <- & V1 & V2 & _ & UN). cbn [values] in V1. specialize (UN _ eq_refl). assert (LN : length (values c') = length vs) by (rewrite V2, V1, !app_length; reflexivity).
      match goal with HE : encs _ _ _ _ _ _ _ (repeat ?e _) vs ?bb |- _ => rewrite V1 in HE at 2; apply (encs_at _ _ _ _ _ _ e) in HE as (b1 & b & b2 & -> & EX & K) end.
      2:{ apply nth_error_repeat. rewrite V1, app_length. cbn. lia. }
      destruct (IH _ EX) as (pre0 & old & post & -> & EU & KU). exists (b1 ++ pre0), old, (post ++ b2). rewrite <- !app_assoc. split; [reflexivity|]. split; [exact EU|].
      intros new HN. apply KU in HN. apply K in HN. rewrite <- V2, <- LN in HN. repeat rewrite <- app_assoc in HN. repeat rewrite <- app_assoc. rewrite UN. eapply E_array; [eassumption|rewrite LN; congruence|exact HN].
  Qed.
End Edit.
