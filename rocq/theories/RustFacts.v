(** * RustFacts: SCALE and serde agree on the value of a Rust datum (C67). *)
From Verif Require Import Base Value Spec_Value ValueFacts Registry Spec_Scale Scale ScaleFacts BitsFacts Decode DecodeFacts Serde SerdeFacts Spec_Serde SerdeRt SerdeUni Spec_Rust.
Open Scope N_scope.

(** Data of a variant body. *)
Definition of_body (b : vshape ty) : vshape data -> Prop :=
  match b with
  | VsUnit => fun x => x = VsUnit
  | VsNewtype t' => fun x => exists y, x = VsNewtype y /\ of_type t' y
  | VsTuple ts => fun x => exists l, x = VsTuple l /\ all2 apply_to (map of_type ts) l
  | VsStruct fs => fun x => exists l, x = VsStruct l /\ map fst l = map fst fs /\
      all2 apply_to (map (fun nt => match nt with (_, t') => of_type t' end) fs) (map snd l)
  end.

Lemma zip_named_combine (fs : list (data -> sd)) : forall l names ws, length names = length l ->
  mapM to_value_sd (zip_app fs l) = Ok ws ->
  mapM (fun nx : str * sd => match nx with (n, x) => bind (to_value_sd x) (fun v => Ok (n, v)) end) (zip_named fs (combine names l)) = Ok (combine names ws).
Proof.
  induction fs as [|f fs IH]; intros l names ws HL H.
  - cbn [zip_app mapM] in H. injection H as <-. cbn [zip_named]. destruct names; [reflexivity|]. reflexivity.
  - destruct l as [|x l], names as [|n names]; try discriminate HL; cbn [zip_app mapM combine zip_named] in *.
    + injection H as <-. reflexivity.
    + destruct (to_value_sd (f x)) as [v|e]; cbn [bind] in *; [|discriminate]. destruct (mapM to_value_sd (zip_app fs l)) as [ws'|e] eqn:E; [|discriminate].
      cbn [rmap] in H. injection H as <-. injection HL as HL. rewrite (IH l names ws' HL E). reflexivity.
Qed.
Lemma map_fst_combine {A B} (l : list A) : forall l' : list B, length l = length l' -> map fst (combine l l') = l.
Proof. induction l as [|x l IH]; intros [|y l'] H; try discriminate; cbn [combine map]; [reflexivity|]. injection H as H. cbn [fst]. now rewrite IH. Qed.
Lemma map_snd_combine {A B} (l : list A) : forall l' : list B, length l = length l' -> map snd (combine l l') = l'.
Proof. induction l as [|x l IH]; intros [|y l'] H; try discriminate; cbn [combine map]; [reflexivity|]. injection H as H. cbn [snd]. now rewrite IH. Qed.
Lemma all2_length {A B} (R : A -> B -> Prop) l : forall l', all2 R l l' -> length l = length l'.
Proof. induction l as [|x l IH]; intros [|y l'] H; cbn [all2] in H; try contradiction; [reflexivity|]. destruct H as [_ H]. cbn [length]. now rewrite (IH _ H). Qed.
Lemma map_composite_named {T U} (f : T -> U) names l : composite_map f (Named (combine names l)) = Named (combine names (map f l)).
Proof. cbn [composite_map]. f_equal. revert l. induction names as [|n names IH]; intros [|x l]; cbn [combine map]; try reflexivity. now rewrite IH. Qed.
Lemma repeat_map {A B} (f : A -> B) x n : map f (repeat x n) = repeat (f x) n.
Proof. induction n; cbn [repeat map]; [reflexivity|]. now rewrite IHn. Qed.
Lemma zip_app_repeat {A} (f : A -> sd) l : zip_app (repeat f (length l)) l = map f l.
Proof. induction l; cbn [length repeat zip_app map]; [reflexivity|]. now rewrite IHl. Qed.
Lemma all2_repeat {A} (P : A -> Prop) l : all2 apply_to (repeat P (length l)) l <-> Forall P l.
Proof.
  induction l as [|x l IH]; cbn [length repeat all2]; [split; auto|]. rewrite IH. unfold apply_to at 1.
  split; [intros []; constructor; auto|intro H; inversion H; auto].
Qed.

Section Agree.
  Context {TId C : Type} (reg : TId -> resolution TId) (maxbits : N) (ctxf : TId -> C) (i256_as : bytes -> prim) (strict : bool).
  Notation ENC := (enc reg maxbits 32 ctxf i256_as strict).
  Notation ENCS := (encs reg maxbits 32 ctxf i256_as strict).
  Notation INFO := (type_info reg false).

  Lemma infos_length ts rs : type_infos reg false ts rs -> length ts = length rs.
  Proof. induction 1; cbn [length]; congruence. Qed.
  Lemma infos_repeat t r n : INFO t r -> type_infos reg false (repeat t n) (repeat r n).
  Proof. intro H. induction n; cbn [repeat]; constructor; assumption. Qed.
  Lemma scales_length rs l bs : scales rs l bs -> length rs = length l.
  Proof. induction 1; cbn [length]; congruence. Qed.
  Lemma variants_in vs l n idx b : variants_info reg false vs l -> In (n, (idx, b)) l ->
    exists l1 fs l2, vs = l1 ++ VInfo n idx fs :: l2 /\ fields_info reg false fs b.
  Proof.
    induction 1 as [|n' idx' fs b' vs l HF HV IH]; intros HI; [destruct HI|]. destruct HI as [HI|HI].
    - injection HI as -> -> ->. exists [], fs, vs. auto.
    - destruct (IH HI) as (l1 & fs' & l2 & -> & HF'). exists (VInfo n' idx' fs :: l1), fs', l2. auto.
  Qed.
  Lemma nodup_before {A} (l1 : list A) x l2 : NoDup (l1 ++ x :: l2) -> ~ In x l1.
  Proof. intros H HI. apply NoDup_remove_2 in H. apply H. apply in_or_app. auto. Qed.

  Lemma encs_len c ts vs bs : ENCS c ts vs bs -> length vs = length ts.
  Proof. induction 1; cbn [length]; congruence. Qed.

  Definition P_scale (r : rust) (d : data) (bs : bytes) : Prop := forall t, INFO t r ->
    exists v, ENC false t v bs /\ to_value_sd (ser (serde_of r) d) = Ok (remove_context v) /\ of_type (serde_of r) d.
  Definition P_body (b : vshape rust) (x : vshape data) (bs : bytes) : Prop := forall fs, fields_info reg false fs b ->
    exists vs cmp, ENCS false (map snd fs) vs bs /\ fields_shape (map fst fs) vs cmp /\
      (forall n, to_value_sd (ser_variant_body n (shape_map ser (shape_map serde_of b)) x) = Ok (Val (DVariant n (composite_map remove_context cmp)) tt)) /\
      of_body (shape_map serde_of b) x.
  Definition P_scales (rs : list rust) (l : list data) (bs : bytes) : Prop := forall ts, type_infos reg false ts rs ->
    exists vs, ENCS false ts vs bs /\ mapM to_value_sd (zip_app (map ser (map serde_of rs)) l) = Ok (map remove_context vs) /\
      all2 apply_to (map of_type (map serde_of rs)) l.

  Lemma agree_fields fs (l' : list (str * rust)) l bs : fields_info reg false fs (VsStruct l') -> length l' = length l -> P_scales (map snd l') l bs ->
    exists vs, ENCS false (map snd fs) vs bs /\ fields_shape (map fst fs) vs (Named (combine (map fst l') vs)) /\
      mapM (fun nx : str * sd => match nx with (n, x) => bind (to_value_sd x) (fun v => Ok (n, v)) end)
        (zip_named (map ser (map serde_of (map snd l'))) (combine (map fst l') l)) = Ok (combine (map fst l') (map remove_context vs)) /\
      map fst (combine (map fst l') l) = map fst l' /\ all2 apply_to (map of_type (map serde_of (map snd l'))) (map snd (combine (map fst l') l)).
  Proof.
    intros HF HL HS. inversion HF as [| | |ts l0 NE ND HT]; subst. specialize (NE eq_refl). destruct (HS ts HT) as (vs & E & TV & OT).
    pose proof (infos_length _ _ HT) as L1. rewrite map_length in L1. pose proof (encs_len _ _ _ _ E) as L2.
    exists vs. rewrite (map_snd_combine _ ts) by (rewrite map_length; congruence). split; [exact E|]. split; [|split; [|split]].
    - rewrite (map_fst_combine _ ts) by (rewrite map_length; congruence). assert (L3 : length (map fst l') = length vs) by (rewrite map_length; congruence).
      replace (map (fun nr => Some (fst nr)) l') with (map (fun kv : str * value C => Some (fst kv)) (combine (map fst l') vs)).
      2:{ rewrite <- map_map, (map_fst_combine _ _ L3), map_map. reflexivity. }
      rewrite <- (map_snd_combine _ vs L3) at 2. apply FS_named. intro HE. apply (f_equal (@length _)) in HE. rewrite combine_length, L3, Nat.min_id in HE.
      destruct l' as [|x l']; [now apply NE|]. cbn [length] in *. lia.
    - apply zip_named_combine; [rewrite map_length; exact HL|exact TV].
    - apply map_fst_combine. rewrite map_length. exact HL.
    - rewrite map_snd_combine by (rewrite map_length; exact HL). exact OT.
  Qed.

  Lemma pair_map {A B} (f : A -> B) (l : list (str * A)) : map snd (map (fun nr => match nr with (n, r') => (n, f r') end) l) = map f (map snd l).
  Proof. rewrite !map_map. apply map_ext. intros []. reflexivity. Qed.
  Lemma pair_map1 {A B} (f : A -> B) (l : list (str * A)) : map (fun nt => match nt with (_, t') => f t' end) l = map f (map snd l).
  Proof. rewrite map_map. apply map_ext. intros []. reflexivity. Qed.
  Lemma pair_map_fst {A B} (f : A -> B) (l : list (str * A)) : map fst (map (fun nr => match nr with (n, r') => (n, f r') end) l) = map fst l.
  Proof. rewrite map_map. apply map_ext. intros []. reflexivity. Qed.

  Lemma agree_mut : (forall r d bs, scale r d bs -> P_scale r d bs) /\ (forall b x bs, scale_body b x bs -> P_body b x bs) /\ (forall rs l bs, scales rs l bs -> P_scales rs l bs).
  Proof.
    apply scale_ind3; unfold P_scale, P_body.
    - (* false *) intros t HI. inversion HI; subst. exists (Val (DPrim (PBool false)) (ctxf t)). split; [eapply E_prim; [eassumption|constructor]|]. split; [reflexivity|]. exists false. reflexivity.
    - intros t HI. inversion HI; subst. exists (Val (DPrim (PBool true)) (ctxf t)). split; [eapply E_prim; [eassumption|constructor]|]. split; [reflexivity|]. exists true. reflexivity.
    - intros w n bs HL t HI. inversion HI; subst. exists (Val (DPrim (PU128 n)) (ctxf t)). split; [eapply E_prim; [eassumption|constructor; exact HL]|].
      split; [cbn [serde_of ser to_value_sd]; rewrite N2Z.id; reflexivity|]. exists (Z.of_N n). split; [reflexivity|]. destruct HL as (HB & HL & HV).
      apply le_val_bound in HB. rewrite HL, HV in HB. unfold in_int. apply andb_true_intro. rewrite Z.leb_le, Z.ltb_lt. split; [lia|].
      change (serde_of (RInt false w)) with (TyInt false (wbits w)) in *. same_sizes. replace (2 ^ Z.of_N (wbits w))%Z with (Z.of_N (2 ^ wbits w)) by (rewrite N2Z.inj_pow; reflexivity). apply N2Z.inj_lt. unfold wbits. rewrite N.pow_mul_r. exact HB.
    - intros w z bs HZ HL t HI. inversion HI; subst. exists (Val (DPrim (PI128 z)) (ctxf t)). split; [eapply E_prim; [eassumption|constructor; assumption]|].
      split; [reflexivity|]. exists z. split; [reflexivity|]. unfold in_int. apply andb_true_intro. rewrite Z.leb_le, Z.ltb_lt. exact HZ.
    - intros w n bs HN HC t HI. inversion HI as [| | |? t' ? R R'| | | | | | | | | | |]; subst. exists (Val (DPrim (PU128 n)) (ctxf t')). split; [eapply E_compact; [exact R|eapply E_compact_uint; eassumption]|].
      split; [cbn [serde_of ser to_value_sd]; rewrite N2Z.id; reflexivity|]. exists (Z.of_N n). split; [reflexivity|].
      unfold in_int. apply andb_true_intro. rewrite Z.leb_le, Z.ltb_lt. split; [lia|].
      change (serde_of (RInt false w)) with (TyInt false (wbits w)) in *. same_sizes. replace (2 ^ Z.of_N (wbits w))%Z with (Z.of_N (2 ^ wbits w)) by (rewrite N2Z.inj_pow; reflexivity). apply N2Z.inj_lt. exact HN.
    - intros s pre HS HL HC t HI. inversion HI; subst. exists (Val (DPrim (PString s)) (ctxf t)). split; [eapply E_prim; [eassumption|constructor; assumption]|]. split; [reflexivity|]. exists s. reflexivity.
    - intros t HI. inversion HI; subst. exists (Val (DComposite (Unnamed [])) (ctxf t)). split; [eapply E_tuple; [eassumption|discriminate|constructor]|]. split; reflexivity.
    - (* None *) intros r t HI. inversion HI as [| | | | | |? ? ? R HT| | | | | | | |]; subst. exists (Val (DVariant (s2l "None") (Unnamed [])) (ctxf t)).
      split; [|split; [reflexivity|left; reflexivity]]. eapply (E_variant _ _ _ _ _ _ t [] (s2l "None") 0 []); [exact R|intros []|reflexivity|constructor|constructor; auto].
    - (* Some *) intros r d bs _ IH t HI. inversion HI as [| | | | | |? t' ? R HT| | | | | | | |]; subst. destruct (IH t' HT) as (v & E & TV & OT).
      exists (Val (DVariant (s2l "Some") (Unnamed [v])) (ctxf t)).
      split; [|split].
      + rewrite <- (app_nil_r bs). eapply (E_variant _ _ _ _ _ _ t [VInfo (s2l "None") 0 []] (s2l "Some") 1 [(None, t')] []); [exact R|intros [H|[]]; discriminate|reflexivity| |].
        * cbn [map snd]. constructor; [exact E|constructor].
        * cbn [map fst]. apply FS_unnamed; [reflexivity|right; left; reflexivity].
      + cbn [serde_of ser to_value_sd]. rewrite TV. reflexivity.
      + right. exists d. auto.
    - (* Vec *) intros r l pre bs HL HC HS IH t HI. inversion HI as [| | | | | | |? t' ? R HT| | | | | | |]; subst.
      destruct (IH (repeat t' (length l)) (infos_repeat _ _ _ HT)) as (vs & E & TV & OT). pose proof (encs_len _ _ _ _ E) as L2. rewrite repeat_length in L2.
      exists (Val (DComposite (Unnamed vs)) (ctxf t)). split; [|split].
      + eapply E_sequence; [exact R|rewrite L2; exact HL|rewrite L2; exact HC|rewrite L2; exact E].
      + rewrite !repeat_map, zip_app_repeat in TV. cbn [serde_of ser to_value_sd]. rewrite TV. reflexivity.
      + rewrite !repeat_map, all2_repeat in OT. exists l. auto.
    - (* array *) intros r n l bs HS IH t HI. inversion HI as [| | | | | | | |? t' ? ? R HT| | | | | |]; subst.
      destruct (IH (repeat t' n) (infos_repeat _ _ _ HT)) as (vs & E & TV & OT). pose proof (encs_len _ _ _ _ E) as L2. rewrite repeat_length in L2.
      exists (Val (DComposite (Unnamed vs)) (ctxf t)). split; [|split].
      + eapply E_array; [exact R|rewrite L2; reflexivity|rewrite L2; exact E].
      + rewrite repeat_map in TV. cbn [serde_of ser to_value_sd]. rewrite TV. reflexivity.
      + exists l. rewrite repeat_map in OT. auto.
    - (* tuple *) intros rs l bs HS IH t HI. inversion HI as [| | | | | | | | |? ts ? R HT| | | | |]; subst.
      destruct (IH ts HT) as (vs & E & TV & OT). exists (Val (DComposite (Unnamed vs)) (ctxf t)). split; [|split].
      + eapply E_tuple; [exact R|discriminate|exact E].
      + cbn [serde_of ser to_value_sd]. rewrite TV. reflexivity.
      + exists l. auto.
    - (* unit struct *) intros t HI. inversion HI; subst. exists (Val (DComposite (Unnamed [])) (ctxf t)). split; [|split; reflexivity].
      eapply E_composite; [eassumption|discriminate|constructor|constructor; auto].
    - (* newtype *) intros r d bs HS IH t HI. inversion HI as [| | | | | | | | | | |? t' ? R HT| | |]; subst. destruct (IH t' HT) as (v & E & TV & OT).
      exists (Val (DComposite (Unnamed [v])) (ctxf t)). split; [|split].
      + rewrite <- (app_nil_r bs). eapply E_composite; [exact R|discriminate|cbn [map snd]; constructor; [exact E|constructor]|cbn [map fst]; apply FS_unnamed; [reflexivity|right; left; reflexivity]].
      + cbn [serde_of ser to_value_sd]. rewrite TV. reflexivity.
      + exists d. auto.
    - (* tuple struct *) intros rs l bs HS IH t HI. inversion HI as [| | | | | | | | | | | |? fs ? R HF| |]; subst. inversion HF as [| |ts ? HT|]; subst.
      destruct (IH ts HT) as (vs & E & TV & OT). pose proof (encs_len _ _ _ _ E) as L2. exists (Val (DComposite (Unnamed vs)) (ctxf t)). split; [|split].
      + eapply E_composite; [exact R|discriminate|rewrite map_map, map_id; exact E|].
        rewrite map_map. apply FS_unnamed; [rewrite map_length; congruence|]. destruct ts; [left; reflexivity|right; left; reflexivity].
      + cbn [serde_of ser to_value_sd]. rewrite TV. reflexivity.
      + exists l. auto.
    - (* struct *) intros fs l bs HS IH t HI. inversion HI as [| | | | | | | | | | | | |? fs' ? R HF|]; subst. pose proof (scales_length _ _ _ HS) as L. rewrite map_length in L.
      destruct (agree_fields fs' fs l bs HF L IH) as (vs & E & SH & TV & NM & OT). exists (Val (DComposite (Named (combine (map fst fs) vs))) (ctxf t)). split; [|split].
      + eapply E_composite; [exact R|discriminate|exact E|exact SH].
      + cbn [serde_of ser to_value_sd]. rewrite pair_map1, pair_map, TV. rewrite remove_context_unfold. cbn [vdef_map]. rewrite map_composite_named. reflexivity.
      + exists (combine (map fst fs) l). rewrite pair_map1, pair_map, pair_map_fst. auto.
    - (* enum *) intros vs n idx b x bs HI HS IH t HT. inversion HT as [| | | | | | | | | | | | | |? vis ? R ND NI HB HV]; subst.
      destruct (variants_in _ _ _ _ _ HV HI) as (l1 & fs & l2 & -> & HF). destruct (IH fs HF) as (ws & cmp & E & SH & TV & OT).
      assert (FB : find_field n (map (fun v : str * (N * vshape rust) => match v with (n, (_, b)) => (n, shape_map serde_of b) end) vs) = Some (shape_map serde_of b)).
      { apply find_field_nodup; [rewrite map_map; erewrite map_ext; [exact ND|intros [? []]; reflexivity]|]. apply in_map_iff. exists (n, (idx, b)). auto. }
      exists (Val (DVariant n cmp) (ctxf t)). split; [|split].
      + eapply E_variant; [exact R| | |exact E|exact SH].
        * rewrite map_app in NI. exact (nodup_before _ _ _ NI).
        * rewrite Forall_app in HB. destruct HB as [_ HB]. inversion HB; subst; assumption.
      + cbn [serde_of ser]. change (to_value_sd (match find_field n (map (fun nb => match nb with (m, b') => (m, shape_map ser b') end)
           (map (fun v : str * (N * vshape rust) => match v with (n, (_, b)) => (n, shape_map serde_of b) end) vs)) with
           Some body => ser_variant_body n body x | None => SFloat end) = Ok (remove_context (Val (DVariant n cmp) (ctxf t)))).
        rewrite (find_field_map (shape_map ser)), FB. cbn [option_map]. rewrite TV. reflexivity.
      + exists n, x. split; [reflexivity|]. change (match find_field n (map (fun nb => match nb with (m, b') => (m, of_body b') end)
           (map (fun v : str * (N * vshape rust) => match v with (n, (_, b)) => (n, shape_map serde_of b) end) vs)) with Some P => P x | None => False end).
        rewrite (find_field_map of_body), FB. exact OT.
    - intros fs HF. inversion HF; subst. exists [], (Unnamed []). split; [constructor|]. split; [constructor; auto|]. split; reflexivity.
    - intros r d bs HS IH fs HF. inversion HF as [|t ? HT| |]; subst. destruct (IH t HT) as (v & E & TV & OT). exists [v], (Unnamed [v]). split; [|split; [|split]].
      + rewrite <- (app_nil_r bs). cbn [map snd]. constructor; [exact E|constructor].
      + cbn [map fst]. apply FS_unnamed; [reflexivity|right; left; reflexivity].
      + intro n. cbn [shape_map ser_variant_body to_value_sd]. rewrite TV. reflexivity.
      + exists d. auto.
    - intros rs l bs HS IH fs HF. inversion HF as [| |ts ? HT|]; subst. destruct (IH ts HT) as (vs & E & TV & OT). pose proof (encs_len _ _ _ _ E) as L2.
      exists vs, (Unnamed vs). split; [|split; [|split]].
      + rewrite map_map, map_id. exact E.
      + rewrite map_map. apply FS_unnamed; [rewrite map_length; congruence|]. destruct ts; [left; reflexivity|right; left; reflexivity].
      + intro n. cbn [shape_map ser_variant_body to_value_sd]. rewrite TV. reflexivity.
      + exists l. auto.
    - intros l' l bs HS IH fs HF. pose proof (scales_length _ _ _ HS) as L. rewrite map_length in L. destruct (agree_fields fs l' l bs HF L IH) as (vs & E & SH & TV & NM & OT).
      exists vs, (Named (combine (map fst l') vs)). split; [exact E|]. split; [exact SH|]. split.
      + intro n. cbn [shape_map ser_variant_body to_value_sd]. rewrite !pair_map, TV, map_composite_named. reflexivity.
      + exists (combine (map fst l') l). split; [reflexivity|]. rewrite pair_map1, pair_map, pair_map_fst. auto.
    - intros ts HT. inversion HT; subst. exists []. split; [constructor|]. split; reflexivity.
    - intros r rs d l b bs HS IH HSs IHs ts HT. inversion HT as [|t ts' ? ? H1 H2]; subst. destruct (IH t H1) as (v & E & TV & OT). destruct (IHs ts' H2) as (vs & Es & TVs & OTs).
      exists (v :: vs). split; [constructor; assumption|]. split.
      + cbn [map zip_app mapM]. rewrite TV. cbn [bind]. rewrite TVs. reflexivity.
      + cbn [map all2]. split; assumption.
  Qed.
End Agree.

(** ** Everything that decodes is data of the Rust type *)
Section Back.
  Context {TId C : Type} (reg : TId -> resolution TId) (braces : bool) (maxbits : N) (ctxf : TId -> C) (i256_as : bytes -> prim) (strict : bool).
  Notation ENC := (enc reg maxbits 32 ctxf i256_as strict).
  Notation ENCS := (encs reg maxbits 32 ctxf i256_as strict).
  Notation INFO := (type_info reg braces).
  Notation INFOS := (type_infos reg braces).

  Lemma infos_repeat' t r n : INFO t r -> INFOS (repeat t n) (repeat r n).
  Proof. intro H. induction n; cbn [repeat]; constructor; assumption. Qed.
  Lemma infos_length' ts rs : INFOS ts rs -> length ts = length rs.
  Proof. induction 1; cbn [length]; congruence. Qed.
  Lemma variants_in' vs l l1 n idx fs l2 : variants_info reg braces vs l -> vs = l1 ++ VInfo n idx fs :: l2 ->
    exists b, In (n, (idx, b)) l /\ fields_info reg braces fs b.
  Proof.
    intro HV. revert l1. induction HV as [|n' idx' fs' b' vs l HF HV IH]; intros l1 HE; [destruct l1; discriminate|]. destruct l1 as [|v l1]; cbn [app] in HE.
    - injection HE as -> -> -> ->. exists b'. split; [left; reflexivity|exact HF].
    - injection HE as <- HE. destruct (IH l1 HE) as (b & HI & HF'). exists b. split; [right; exact HI|exact HF'].
  Qed.
  Lemma scale_fields fs b bs : fields_info reg braces fs b -> (forall rs, INFOS (map snd fs) rs -> exists l, scales rs l bs) -> exists x, scale_body b x bs.
  Proof.
    intros HF H. inversion HF as [|t r HT|ts rs HT|ts l HN ND HT]; subst.
    - destruct (H [] ltac:(constructor)) as (l & S). inversion S; subst. exists VsUnit. constructor.
    - destruct (H [r] ltac:(repeat constructor; exact HT)) as (l & S). inversion S as [|? ? d l' b' bs' S1 S2]; subst. inversion S2; subst. rewrite app_nil_r. exists (VsNewtype d). now constructor.
    - rewrite map_map, map_id in H. destruct (H rs HT) as (l & S). exists (VsTuple l). now constructor.
    - pose proof (infos_length' _ _ HT) as L. rewrite map_length in L. rewrite map_snd_combine in H by (rewrite map_length; congruence).
      destruct (H _ HT) as (x & S). exists (VsStruct (combine (map fst l) x)). now constructor.
  Qed.

  Lemma back_mut :
    (forall c t v bs, ENC c t v bs -> c = false -> forall r, INFO t r -> exists d, scale r d bs) /\
    (forall c ts vs bs, ENCS c ts vs bs -> c = false -> forall rs, INFOS ts rs -> exists l, scales rs l bs).
  Proof.
    apply enc_encs_ind.
    - intros t p x bs R HP _ r HI. inversion HI; subst; try congruence; assert (p = _) by (rewrite R in *; match goal with H : ResTy (TPrim _) = ResTy (TPrim _) |- _ => injection H as H; exact H end); subst p; inversion HP; subst;
        eexists; econstructor; eassumption.
    - discriminate.
    - intros c t t' v bs R E IH -> r HI. inversion HI as [| | |? t'' w R1 R2| | | | | | | | | | |]; subst; try congruence. assert (t'' = t') by congruence. subst t''.
      inversion E; subst; try congruence. assert (w0 = w) by congruence. subst w0. exists (XInt (Z.of_N n)). constructor; assumption.
    - intros c t fs vs cmp bs R HC E IH SH -> r HI. specialize (IH eq_refl).
      inversion HI as [| | | | | | | | | |? R1|? t' r' R1 HT|? fs' rs R1 HF|? fs' l R1 HF|]; subst; try congruence; match type of R1 with _ = ResTy (TComposite ?x) => assert (EF : fs = x) by congruence; subst fs end.
      + destruct (IH [] ltac:(constructor)) as (l & S). inversion S; subst. exists XUnitStruct. constructor.
      + destruct (IH [r'] ltac:(repeat constructor; exact HT)) as (l & S). inversion S as [|? ? d l' b' bs' S1 S2]; subst. inversion S2; subst. rewrite app_nil_r. exists (XNewtype d). now constructor.
      + destruct (scale_fields _ _ _ HF IH) as (x & S). inversion S; subst. eexists. constructor. eassumption.
      + destruct (scale_fields _ _ _ HF IH) as (x & S). inversion S; subst. eexists. constructor. eassumption.
    - intros c t ts vs bs R HC E IH -> r HI. specialize (IH eq_refl). inversion HI as [| | | | |? R1| | | |? ts' rs R1 HT| | | | |]; subst; try congruence.
      + assert (ts = []) by congruence. subst ts. destruct (IH [] ltac:(constructor)) as (l & S). inversion S; subst. exists XUnit. constructor.
      + assert (ts' = ts) by congruence. subst ts'. destruct (IH rs HT) as (l & S). exists (XTuple l). now constructor.
    - intros t l1 n idx fs l2 vs cmp bs R NI HB E IH SH _ r HI. specialize (IH eq_refl).
      inversion HI as [| | | | | |? t' r' R1 HT| | | | | | | |? vis l R1 ND NDI HIB HV]; subst; try congruence.
      + rewrite R in R1. injection R1 as R1. destruct l1 as [|v1 [|v2 l1]]; cbn [app] in R1.
        * injection R1 as -> -> -> _. destruct (IH [] ltac:(constructor)) as (l & S). inversion S; subst. exists XNone. constructor.
        * injection R1 as _ -> -> -> _. destruct (IH [r'] ltac:(repeat constructor; exact HT)) as (l & S).
          inversion S as [|? ? d l' b' bs' S1 S2]; subst. inversion S2; subst. rewrite app_nil_r. exists (XSome d). now constructor.
        * injection R1 as _ _ R1. destruct l1; discriminate.
      + rewrite R in R1. injection R1 as R1. destruct (variants_in' _ _ l1 n idx fs l2 HV (eq_sym R1)) as (b & HIn & HF).
        destruct (scale_fields _ _ _ HF IH) as (x & S). exists (XEnum n x). econstructor; eassumption.
    - intros t t' vs pre bs R HL HC E IH _ r HI. specialize (IH eq_refl). inversion HI as [| | | | | | |? t'' r' R1 HT| | | | | | |]; subst; try congruence.
      assert (t'' = t') by congruence. subst t''. destruct (IH _ (infos_repeat' _ _ _ HT)) as (l & S). assert (L : length l = length vs).
      { apply scales_length in S. rewrite repeat_length in S. congruence. }
      exists (XVec l). constructor; rewrite ?L; assumption.
    - intros t t' n vs bs R HL E IH _ r HI. specialize (IH eq_refl). inversion HI as [| | | | | | | |? t'' r' n' R1 HT| | | | | |]; subst; try congruence.
      rewrite R in R1. injection R1 as -> HN. apply Nat2N.inj in HN. subst n'. destruct (IH _ (infos_repeat' _ _ _ HT)) as (l & S). exists (XTuple l). now constructor.
    - intros t st o b pre bs R _ _ _ _ _ r HI. inversion HI; subst; congruence.
    - intros c _ rs HI. inversion HI; subst. exists []. constructor.
    - intros c t ts v vs b bs _ IH _ IHs -> rs HI. inversion HI as [|? ? r rs' H1 H2]; subst. destruct (IH eq_refl r H1) as (d & S). destruct (IHs eq_refl rs' H2) as (l & Ss).
      exists (d :: l). now constructor.
  Qed.
End Back.
