(** * ToValueFacts: the rules of [to_value] are those of Spec_ToValue. *)
From Verif Require Import Base Value Spec_Value ValueFacts Scale Spec_Scale Serde SerdeFacts Spec_Serde SerdeRt SerdeUni SerdeParts Spec_Reads ReadsFacts Spec_ToValue.
Ltac inv H := inversion H; subst; clear H.

Definition wr (t : ty) : Prop := forall x v, writes t x v -> to_value_sd (ser t x) = Ok v.

Lemma vdef_eta {T} (v : value T) : v = Val (vdef_of v) (ctx_of v).
Proof. destruct v; reflexivity. Qed.

(** Values *)
Lemma spelt_flatten {T} (v : value T) : forall w, spelt (vdef_of v) w <-> w = flatten v.
Proof.
  induction v as [d ctx IH] using value_ind'. intro w. cbn [vdef_of].
  assert (L : forall l, Forall (fun v : value T => forall w, spelt (vdef_of v) w <-> w = flatten v) l -> forall l', spelt_list l l' <-> l' = map flatten l).
  { clear. induction 1 as [|[d c] l H _ IH]; intro l'; cbn [map].
    - split; [intro H; inv H; reflexivity|intros ->; constructor].
    - split; [intro K; inv K; f_equal; [now apply H|now apply IH]|intros ->; constructor; [now apply (H (flatten (Val d c)))|now apply IH]]. }
  assert (F : forall c : composite (value T), Forall (fun v : value T => forall w, spelt (vdef_of v) w <-> w = flatten v) (values c) -> forall c', spelt_fields c c' <-> c' = composite_map flatten c).
  { intros [l|l] H c'; cbn [values composite_map] in *.
    - split.
      + intro K. inv K. f_equal. match goal with K : spelt_list _ _ |- _ => apply (L _ H) in K; rename K into E end. match goal with K : map fst _ = map fst l |- _ => rename K into EF end.
        clear -E EF. revert l E EF. match goal with |- forall l, map snd ?x = _ -> _ => rename x into l' end. induction l' as [|[k w] l' IH]; intros [|[k0 v] l] E EF; cbn [map fst snd] in *; try discriminate; [reflexivity|].
        injection E as -> E. injection EF as -> EF. f_equal. auto.
      + intros ->. constructor; [apply (L _ H); rewrite !map_map; apply map_ext; intros []; reflexivity|rewrite map_map; apply map_ext; intros []; reflexivity].
    - split; [intro K; inv K; f_equal; now apply (L _ H)|intros ->; constructor; now apply (L _ H)]. }
  destruct d as [c|n c|b|p]; cbn [children] in IH; cbn [flatten].
  - split; [intro K; inv K; unfold without_context; f_equal; f_equal; now apply (F c IH)|intros ->; apply P_composite; now apply (F c IH)].
  - split; [intro K; inv K; unfold without_context, name_key, values_key; do 5 f_equal; f_equal; now apply (F c IH)|intros ->; apply (P_variant n c); now apply (F c IH)].
  - split; [intro K; inv K; reflexivity|intros ->; constructor].
  - split.
    + intro K. inv K; destruct p; cbn [bytes_in] in *; try discriminate; try reflexivity; match goal with H : Some _ = Some _ |- _ => injection H as -> end; reflexivity.
    + intros ->. destruct p; first [apply P_prim; reflexivity|apply P_256; reflexivity].
Qed.

Lemma writes_value v : forall w, spelt (T := unit) (vdef_of v) w -> to_value_sd (ser_value v) = Ok w.
Proof. intros w H. rewrite to_value_of_value. f_equal. symmetry. now apply spelt_flatten. Qed.

(** Lists *)
Lemma wr_list ts : Forall wr ts -> forall xs vs, Forall3 writes ts xs vs -> mapM to_value_sd (zip_app (map ser ts) xs) = Ok vs.
Proof.
  intro W. induction 1 as [|t x v ts xs vs H _ IH]; cbn [map zip_app mapM]; [reflexivity|]. inv W. rewrite (H2 x v H). cbn [bind]. rewrite IH by assumption. reflexivity.
Qed.
Lemma wr_fields fs : Forall wr (map snd fs) -> forall ds l, Forall3 (fun (ft : str * ty) nx kv => fst nx = fst ft /\ fst kv = fst ft /\ writes (snd ft) (snd nx) (snd kv)) fs ds l ->
  mapM (fun nx : str * sd => match nx with (n, x) => bind (to_value_sd x) (fun v => Ok (n, v)) end) (zip_named (map (fun nt : str * ty => match nt with (_, t') => ser t' end) fs) ds) = Ok l.
Proof.
  intro W. induction 1 as [|[n t] [n1 x] [n2 v] fs ds l (E1 & E2 & H) _ IH]; cbn [map zip_named mapM fst snd] in *; [reflexivity|]. subst. inv W. rewrite (H2 x v H). cbn [bind].
  rewrite IH by assumption. reflexivity.
Qed.
Lemma wr_vec t : wr t -> forall xs vs, Forall2 (writes t) xs vs -> mapM to_value_sd (map (ser t) xs) = Ok vs.
Proof. intro W. induction 1 as [|x v xs vs H _ IH]; cbn [map mapM]; [reflexivity|]. rewrite (W x v H). cbn [bind]. now rewrite IH. Qed.

Lemma wn_enum vs n b : fold_right (fun (nb : str * vshape ty) P => match nb with (_, b) =>
        match b with
        | VsUnit => True
        | VsNewtype t' => well_named t'
        | VsTuple ts => fold_right (fun t' P => well_named t' /\ P) True ts
        | VsStruct fs => NoDup (map fst fs) /\ fold_right (fun (ft : str * ty) P => match ft with (_, t') => well_named t' end /\ P) True fs
        end end /\ P) True vs -> In (n, b) vs -> Forall well_named (vs_tys b) /\ match b with VsStruct fs => NoDup (map fst fs) | _ => True end.
Proof.
  induction vs as [|[m b'] vs IH]; intros H HI; [destruct HI|]. destruct H as [H1 H2]. destruct HI as [E|HI]; [|auto]. injection E as -> ->.
  destruct b as [|t|ts|fs]; cbn [vs_tys]; [split; [constructor|exact I]|split; [constructor; [exact H1|constructor]|exact I]|split; [now apply wn_list|exact I]|].
  destruct H1 as [N H1]. split; [now apply wn_fields|exact N].
Qed.
Lemma ser_body vs n b0 : NoDup (map fst vs) -> In (n, b0) vs ->
  find_field n (map (fun nb : str * vshape ty => match nb with (m, b') =>
                   (m, match b' with
                       | VsUnit => VsUnit
                       | VsNewtype t' => VsNewtype (ser t')
                       | VsTuple l => VsTuple (map ser l)
                       | VsStruct l => VsStruct (map (fun nt => match nt with (k, t') => (k, ser t') end) l)
                       end) end) vs) =
  Some (match b0 with VsUnit => VsUnit | VsNewtype t' => VsNewtype (ser t') | VsTuple l => VsTuple (map ser l) | VsStruct l => VsStruct (map (fun nt => match nt with (k, t') => (k, ser t') end) l) end).
Proof.
  intros N HI. rewrite (find_field_map (fun b' => match b' with VsUnit => VsUnit | VsNewtype t' => VsNewtype (ser t') | VsTuple l => VsTuple (map ser l) | VsStruct l => VsStruct (map (fun nt => match nt with (k, t') => (k, ser t') end) l) end)).
  rewrite (find_field_nodup _ _ _ N HI). reflexivity.
Qed.

Lemma all_writes t : well_named t -> wr t.
Proof.
  induction t as [|sg w| | | | |t IH|t IH|ts IH|t IH|t IH| |t IH|ts IH|fs IH|vs IH| | | |] using ty_ind'; intros W x v H; cbn [well_named] in W; inv H; cbn [ser]; try reflexivity.
  - cbn [to_value_sd]. rewrite N2Z.id. reflexivity.
  - cbn [to_value_sd]. erewrite (IH W) by eassumption. reflexivity.
  - cbn [to_value_sd]. erewrite (wr_vec t (IH W)) by eassumption. reflexivity.
  - cbn [to_value_sd]. erewrite wr_list; [reflexivity| |eassumption]. apply wn_list in W. rewrite Forall_forall in *. auto.
  - cbn [to_value_sd]. match goal with H : Forall2 _ _ _ |- _ => rename H into F end. rewrite mapM_map.
    assert (E : forall m l, Forall2 (fun (kx : str * data) (kv : str * value unit) => fst kv = fst kx /\ writes t (snd kx) (snd kv)) m l -> mapM (fun x : str * data => bind (to_value_sd (SStr (fst x))) (fun kk => bind (key_of kk) (fun s => bind (to_value_sd (ser t (snd x))) (fun v => Ok (s, v))))) m = Ok l).
    { clear F. induction 1 as [|[k x] [k' v] m' l' [E H] _ IHm]; cbn [mapM fst snd] in *; [reflexivity|]. subst. rewrite (IH W x v H), IHm. cbn [to_value_sd bind key_of vdef_of vstring primitive]. reflexivity. }
    rewrite (E _ _ F). reflexivity.
  - cbn [to_value_sd]. match goal with H : Forall2 _ _ _ |- _ => rename H into F end. match goal with H : Forall _ _ |- _ => rename H into K end. rewrite mapM_map.
    assert (E : forall m l, Forall (fun kx : str * data => exists c, fst kx = [c]) m -> Forall2 (fun (kx : str * data) (kv : str * value unit) => fst kv = fst kx /\ writes t (snd kx) (snd kv)) m l -> mapM (fun x : str * data => bind (to_value_sd (SChar (hd 0%N (fst x)))) (fun kk => bind (key_of kk) (fun s => bind (to_value_sd (ser t (snd x))) (fun v => Ok (s, v))))) m = Ok l).
    { clear F K. intros m' l' K. induction 1 as [|[k x] [k' v] m' l' [E H] _ IHm]; cbn [mapM fst snd] in *; [reflexivity|]. inv K. cbn [fst] in *. destruct H2 as [c ->]. rewrite (IH W x v H), IHm by assumption. cbn [hd to_value_sd bind key_of vdef_of vchar primitive]. reflexivity. }
    rewrite (E _ _ K F). reflexivity.
  - cbn [to_value_sd]. erewrite (IH W) by eassumption. reflexivity.
  - cbn [to_value_sd]. erewrite wr_list; [reflexivity| |eassumption]. apply wn_list in W. rewrite Forall_forall in *. auto.
  - cbn [to_value_sd]. erewrite wr_fields; [reflexivity| |eassumption]. destruct W as [_ W]. apply wn_fields in W. rewrite Forall_forall in *. auto.
  - destruct W as [N W]. erewrite ser_body by eassumption. reflexivity.
  - destruct W as [N W]. erewrite ser_body by eassumption. cbn [ser_variant_body to_value_sd]. edestruct wn_enum as [W1 _]; [exact W|eassumption|]. rewrite Forall_forall in IH.
    match goal with H : In (_, _) vs |- _ => specialize (IH _ H) end. cbn [snd vs_tys] in *. pose proof (Forall_inv IH (Forall_inv W1)) as W2. erewrite W2 by eassumption. reflexivity.
  - destruct W as [N W]. erewrite ser_body by eassumption. cbn [ser_variant_body to_value_sd]. edestruct wn_enum as [W1 _]; [exact W|eassumption|]. rewrite Forall_forall in IH.
    match goal with H : In (_, _) vs |- _ => specialize (IH _ H) end. cbn [snd vs_tys] in *. erewrite wr_list; [reflexivity| |eassumption]. rewrite Forall_forall in *. auto.
  - destruct W as [N W]. erewrite ser_body by eassumption. cbn [ser_variant_body to_value_sd]. edestruct wn_enum as [W1 _]; [exact W|eassumption|]. rewrite Forall_forall in IH.
    match goal with H : In (_, _) vs |- _ => specialize (IH _ H) end. cbn [snd vs_tys] in *. rewrite map_map.
    rewrite (map_ext (fun x : str * ty => snd (let (k, t') := x in (k, ser t'))) (fun nt : str * ty => match nt with (_, t') => ser t' end)) by (intros []; reflexivity).
    erewrite wr_fields; [reflexivity| |eassumption]. rewrite Forall_forall in *. auto.
  - apply writes_value. assumption.
  - rewrite <- (writes_value (Val (DComposite c) tt) v); [reflexivity|assumption].
  - rewrite <- (writes_value (Val (DVariant n c) tt) v); [reflexivity|assumption].
  - rewrite <- (writes_value (Val (DPrim p) tt) v); [reflexivity|assumption].
Qed.

(** Every datum is written. *)
Lemma spelt_ex {T} (v : value T) : spelt (vdef_of v) (flatten v).
Proof. now apply spelt_flatten. Qed.

Definition total (t : ty) : Prop := forall x, data_of t x -> exists v, writes t x v.
Lemma total_list ts : Forall total ts -> forall xs, Forall2 data_of ts xs -> exists vs, Forall3 writes ts xs vs.
Proof.
  intro W. induction 1 as [|t x ts xs H _ IH]; [exists []; constructor|]. inv W. destruct (IH H3) as [vs K]. destruct (H2 x H) as [v L]. exists (v :: vs). now constructor.
Qed.
Lemma total_fields fs : Forall total (map snd fs) -> forall ds, Forall2 (fun (ft : str * ty) (nx : str * data) => fst nx = fst ft /\ data_of (snd ft) (snd nx)) fs ds ->
  exists l, Forall3 (fun (ft : str * ty) (nx : str * data) (kv : str * value unit) => fst nx = fst ft /\ fst kv = fst ft /\ writes (snd ft) (snd nx) (snd kv)) fs ds l.
Proof.
  intro W. induction 1 as [|[n t] [n1 x] fs ds [E H] _ IH]; [exists []; constructor|]. cbn [map fst snd] in *. inv W. destruct (IH H3) as [vs K]. destruct (H2 x H) as [v L]. exists ((n, v) :: vs). constructor; [cbn [fst snd]; auto|exact K].
Qed.
Lemma all_total t : total t.
Proof.
  induction t as [|sg w| | | | |t IH|t IH|ts IH|t IH|t IH| |t IH|ts IH|fs IH|vs IH| | | |] using ty_ind'; intros x H; inv H; try (eexists; constructor; fail).
  - destruct sg; [eexists; constructor|]. cbn [int_range] in *. exists (vu128 (Z.to_N z)). rewrite <- (Z2N.id z) at 1 by lia. constructor.
  - match goal with H : data_of t _ |- _ => destruct (IH _ H) as [v K] end. eexists. constructor. exact K.
  - assert (E : exists vs, Forall2 (writes t) xs vs).
    { match goal with H : Forall _ xs |- _ => clear -H IH; rename H into F end. induction F as [|x xs Hx _ [vs K]]; [exists []; constructor|]. destruct (IH x Hx) as [v L]. exists (v :: vs). now constructor. }
    destruct E as [vs E]. eexists. constructor. exact E.
  - match goal with H : Forall2 _ ts _ |- _ => destruct (total_list ts IH _ H) as [vs' K] end. eexists. constructor. exact K.
  - assert (E : exists l, Forall2 (fun (kx : str * data) (kv : str * value unit) => fst kv = fst kx /\ writes t (snd kx) (snd kv)) m l).
    { match goal with H : Forall _ m |- _ => clear -H IH; rename H into F end. induction F as [|[k x] m Hx _ [vs K]]; [exists []; constructor|]. destruct (IH x Hx) as [v L]. exists ((k, v) :: vs). constructor; [cbn [fst snd]; auto|exact K]. }
    destruct E as [vs E]. eexists. constructor. exact E.
  - assert (E : exists l, Forall2 (fun (kx : str * data) (kv : str * value unit) => fst kv = fst kx /\ writes t (snd kx) (snd kv)) m l).
    { match goal with H : Forall _ m |- _ => clear -H IH; rename H into F end. induction F as [|[k x] m Hx _ [vs K]]; [exists []; constructor|]. destruct (IH x (proj2 Hx)) as [v L]. exists ((k, v) :: vs). constructor; [cbn [fst snd]; auto|exact K]. }
    destruct E as [vs E]. eexists. constructor; [|exact E]. eapply Forall_impl; [|eassumption]. intros a [Ha _]. exact Ha.
  - match goal with H : data_of t _ |- _ => destruct (IH _ H) as [v K] end. eexists. constructor. exact K.
  - match goal with H : Forall2 _ ts _ |- _ => destruct (total_list ts IH _ H) as [vs' K] end. eexists. constructor. exact K.
  - match goal with H : Forall2 _ fs _ |- _ => destruct (total_fields fs IH _ H) as [vs' K] end. eexists. constructor. exact K.
  - eexists. apply W_enum_unit. assumption.
  - rewrite Forall_forall in IH. match goal with H : In _ vs |- _ => specialize (IH _ H) end. cbn [snd vs_tys] in IH. match goal with H : data_of _ _ |- _ => destruct (Forall_inv IH _ H) as [v K] end. eexists. eapply W_enum_newtype; eassumption.
  - rewrite Forall_forall in IH. match goal with H : In _ vs |- _ => specialize (IH _ H) end. cbn [snd vs_tys] in IH. match goal with H : Forall2 _ ts _ |- _ => destruct (total_list ts IH _ H) as [v K] end. eexists. eapply W_enum_tuple; eassumption.
  - rewrite Forall_forall in IH. match goal with H : In _ vs |- _ => specialize (IH _ H) end. cbn [snd vs_tys] in IH. match goal with H : Forall2 _ fs _ |- _ => destruct (total_fields fs IH _ H) as [v K] end. eexists. eapply W_enum_struct; eassumption.
  - eexists. constructor. apply spelt_ex.
  - eexists. constructor. apply (spelt_ex (Val (DComposite c) tt)).
  - eexists. constructor. apply (spelt_ex (Val (DVariant n c) tt)).
  - eexists. constructor. apply (spelt_ex (Val (DPrim p) tt)).
Qed.

