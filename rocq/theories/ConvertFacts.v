(** * ConvertFacts: reading data of one type as another. *)
From Verif Require Import Base Value Spec_Value ValueFacts Scale Spec_Scale Serde SerdeFacts Spec_Serde SerdeRt SerdeUni Spec_Parts SerdeParts Spec_Maps SerdeMaps Spec_Reads ReadsFacts Spec_ToValue ToValueFacts Spec_Convert.

(** ** What lists of items are written to *)
Definition wrote (tx : ty * data) (v : value unit) : Prop := writes (fst tx) (snd tx) v.
Definition wrote_field (ktx : str * (ty * data)) (kv : str * value unit) : Prop := fst kv = fst ktx /\ wrote (snd ktx) (snd kv).

Lemma wrote_combine ts xs vs : Forall3 writes ts xs vs -> Forall2 wrote (combine ts xs) vs.
Proof. induction 1; cbn [combine]; constructor; auto. Qed.
Lemma wrote_fields fs ds l : Forall3 (fun (ft : str * ty) (nx : str * data) (kv : str * value unit) => fst nx = fst ft /\ fst kv = fst ft /\ writes (snd ft) (snd nx) (snd kv)) fs ds l ->
  Forall2 wrote_field (field_items fs ds) l.
Proof. unfold field_items. induction 1 as [|a b c la lb lc (H1 & H2 & H3) _ IH]; cbn [combine map]; constructor; [split; [exact H2|exact H3]|exact IH]. Qed.
Lemma wrote_map t m l : Forall2 (fun (kx : str * data) (kv : str * value unit) => fst kv = fst kx /\ writes t (snd kx) (snd kv)) m l ->
  Forall2 wrote_field (map (fun kx => (fst kx, (t, snd kx))) m) l.
Proof. induction 1; cbn [map]; constructor; auto. Qed.

Lemma elements_written t x l v : elements t x l -> writes t x v -> exists vs, v = unnamed_composite vs /\ Forall2 wrote l vs.
Proof.
  intros E W. inv E; inv W.
  - exists []. split; [reflexivity|constructor].
  - exists []. split; [reflexivity|constructor].
  - eexists. split; [reflexivity|]. match goal with H : Forall2 _ _ _ |- _ => induction H; cbn [map]; constructor; auto end.
  - eexists. split; [reflexivity|]. now apply wrote_combine.
  - eexists. split; [reflexivity|]. now apply wrote_combine.
  - eexists. split; [reflexivity|]. constructor; [assumption|constructor].
  - eexists. split; [reflexivity|]. induction bs; cbn [map]; constructor; [constructor|assumption].
Qed.
Lemma entries_written t x l v : entries t x l -> writes t x v -> exists vs, v = named_composite vs /\ Forall2 wrote_field l vs.
Proof.
  intros E W. inv E; inv W; (eexists; split; [reflexivity|]).
  - now apply wrote_fields.
  - now apply wrote_map.
  - now apply wrote_map.
Qed.
Lemma wrote_field_fst l vs : Forall2 wrote_field l vs -> map fst vs = map fst l.
Proof. induction 1 as [|a b l vs [E _] _ IH]; cbn [map]; [reflexivity|now f_equal]. Qed.
Lemma wrote_field_snd l vs : Forall2 wrote_field l vs -> Forall2 wrote (map snd l) (map snd vs).
Proof. induction 1 as [|a b l vs [_ E] _ IH]; cbn [map]; constructor; assumption. Qed.
Lemma listed_written t x l v : listed t x l -> writes t x v -> exists c, v = without_context (DComposite c) /\ Forall2 wrote l (values c).
Proof.
  intros [E|(l' & E & ->)] W.
  - destruct (elements_written _ _ _ _ E W) as (vs & -> & F). exists (Unnamed vs). split; [reflexivity|exact F].
  - destruct (entries_written _ _ _ _ E W) as (vs & -> & F). exists (Named vs). split; [reflexivity|]. now apply wrote_field_snd.
Qed.

(** Bodies of variants *)
Definition body_written (b : vshape ty) (bx : vshape data) (n : str) (v : value unit) : Prop :=
  exists c, v = without_context (DVariant n c) /\ (forall l, body_elements b bx l -> exists vs, c = Unnamed vs /\ Forall2 wrote l vs) /\
    (forall l, body_entries b bx l -> exists vs, c = Named vs /\ Forall2 wrote_field l vs).
Lemma nodup_in {A} (l : list (str * A)) n a b : NoDup (map fst l) -> In (n, a) l -> In (n, b) l -> a = b.
Proof. intros N H1 H2. apply (find_field_nodup l n a N) in H1. apply (find_field_nodup l n b N) in H2. congruence. Qed.
Lemma enum_written vs n b bx v : NoDup (map fst vs) -> In (n, b) vs -> writes (TyEnum vs) (XEnum n bx) v -> body_written b bx n v.
Proof.
  intros N HI W. inv W; match goal with H : In (n, _) vs |- _ => first [constr_eq H HI; fail 1|pose proof (nodup_in vs n _ _ N HI H); subst b] end;
    (eexists; split; [reflexivity|]; split; intros l' HL; inv HL; eexists; split; try reflexivity).
  - constructor.
  - constructor; [assumption|constructor].
  - now apply wrote_combine.
  - now apply wrote_fields.
Qed.
Lemma body_listed_written b bx l n v : body_listed b bx l -> body_written b bx n v -> exists c, v = without_context (DVariant n c) /\ Forall2 wrote l (values c).
Proof.
  intros HL (c & -> & H1 & H2). exists c. split; [reflexivity|]. destruct HL as [HL|(l' & HL & ->)].
  - destruct (H1 _ HL) as (vs & -> & F). exact F.
  - destruct (H2 _ HL) as (vs & -> & F). now apply wrote_field_snd.
Qed.

(** ** Reading *)
Definition ok (u : ty) : Prop := forall t x y v, well_named t -> converts t x u y -> writes t x v -> reads u (AtValue v) y.

Lemma list_well_named t x l : listed t x l -> well_named t -> Forall (fun tx => well_named (fst tx)) l.
Proof.
  assert (K : forall ts (xs : list data), Forall well_named ts -> Forall (fun tx => well_named (fst tx)) (combine ts xs)).
  { induction ts as [|t' ts IH]; intros [|y ys] F; cbn [combine]; try constructor; inv F; [assumption|auto]. }
  assert (K2 : forall fs ds, Forall well_named (map snd fs) -> Forall (fun tx => well_named (fst tx)) (map snd (field_items fs ds))).
  { unfold field_items. induction fs as [|[n t'] fs IH]; intros [|[n' y] ys] F; cbn [combine map fst snd] in *; try constructor; inv F; [assumption|auto]. }
  intros [E|(l' & E & ->)] W; inv E; cbn [well_named] in W; try (constructor; fail).
  - apply Forall_forall. intros [t' y] HI. apply in_map_iff in HI as (y' & E & _). inv E. exact W.
  - apply K. now apply wn_list.
  - apply K. now apply wn_list.
  - constructor; [exact W|constructor].
  - apply Forall_forall. intros [t' y] HI. apply in_map_iff in HI as (y' & E & _). inv E. exact I.
  - apply K2. destruct W as [_ W]. now apply wn_fields.
  - apply Forall_forall. intros [t' y] HI. rewrite map_map in HI. apply in_map_iff in HI as (y' & E & _). inv E. exact W.
  - apply Forall_forall. intros [t' y] HI. rewrite map_map in HI. apply in_map_iff in HI as (y' & E & _). inv E. exact W.
Qed.
Lemma body_well_named vs n b bx l : well_named (TyEnum vs) -> In (n, b) vs -> body_listed b bx l -> Forall (fun tx => well_named (fst tx)) l.
Proof.
  intros [N W] HI HL. destruct (wn_enum vs n b W HI) as [W1 W2].
  assert (WL : forall t x l, listed t x l -> well_named t -> Forall (fun tx => well_named (fst tx)) l) by exact list_well_named.
  destruct HL as [HL|(l' & HL & ->)]; inv HL; cbn [vs_tys] in *.
  - constructor.
  - constructor; [exact (Forall_inv W1)|constructor].
  - apply (WL (TyTuple ts) (XTuple xs)); [left; constructor|]. cbn [well_named]. now apply wn_list.
  - apply (WL (TyStruct fs) (XStruct ds)); [right; eexists; split; [constructor|reflexivity]|]. cbn [well_named]. split; [exact W2|now apply wn_fields].
Qed.

Lemma read_all u : ok u -> forall l vs ys, Forall (fun tx => well_named (fst tx)) l -> Forall2 wrote l vs -> Forall2 (fun tx y => converts (fst tx) (snd tx) u y) l ys ->
  Forall2 (reads u) (map AtValue vs) ys.
Proof.
  intros O l vs ys W F. revert ys. induction F as [|a v l vs H _ IH]; intros ys C; inv C; cbn [map]; constructor; inv W; [eapply O; eassumption|auto].
Qed.
Lemma read_each us : Forall ok us -> forall l vs ys, Forall (fun tx => well_named (fst tx)) l -> Forall2 wrote l vs -> Forall3 (fun u tx y => converts (fst tx) (snd tx) u y) us l ys ->
  Forall3 reads us (map AtValue vs) ys.
Proof.
  intros O l vs ys W F C. revert vs F O W. induction C as [|u a y us l ys H _ IH]; intros vs F O W; inv F; cbn [map]; constructor; inv O; inv W.
  - match goal with H : ok u |- _ => eapply H; eassumption end.
  - apply IH; assumption.
Qed.
Lemma read_entries u : ok u -> forall l vs kys, Forall (fun kt => well_named (fst (snd kt))) l -> Forall2 wrote_field l vs ->
  Forall2 (fun (kt : str * (ty * data)) (ky : str * data) => fst ky = fst kt /\ converts (fst (snd kt)) (snd (snd kt)) u (snd ky)) l kys ->
  Forall2 (fun (kv : str * value unit) (kx : str * data) => fst kx = fst kv /\ reads u (AtValue (snd kv)) (snd kx)) vs kys.
Proof.
  intros O l vs kys W F. revert kys. induction F as [|a v l vs [E H] _ IH]; intros ys C; inv C; constructor; inv W; [|auto].
  match goal with H : _ /\ converts _ _ _ _ |- _ => destruct H as [H1 H2] end. split; [congruence|eapply O; eassumption].
Qed.
Lemma nodup_among known ks : NoDup ks -> NoDup (among known ks).
Proof. apply NoDup_filter. Qed.
Lemma keys_of (vs : list (str * value unit)) : map fst (map (fun kv => (fst kv, AtValue (snd kv))) vs) = map fst vs.
Proof. rewrite map_map. apply map_ext. reflexivity. Qed.
Lemma read_named gs : Forall ok (map snd gs) -> forall l vs ds, Forall (fun kt => well_named (fst (snd kt))) l -> Forall2 wrote_field l vs -> NoDup (map fst l) ->
  Forall2 (fun gu ny => fst ny = fst gu /\
      ((exists tx, In (fst gu, tx) l /\ converts (fst tx) (snd tx) (snd gu) (snd ny)) \/
       (~ In (fst gu) (map fst l) /\ (exists u, snd gu = TyOption u) /\ snd ny = XNone))) gs ds ->
  forall p, struct_at p = Some (inl (map (fun kv => (fst kv, AtValue (snd kv))) vs)) -> reads (TyStruct gs) p (XStruct ds).
Proof.
  intros O l vs ds W F N C p HP. eapply R_struct_named; [exact HP| |].
  - apply nodup_among. rewrite keys_of. rewrite (wrote_field_fst l vs F). exact N.
  - eapply F2_in; [|exact C]. intros gu ny HI [E [(tx & HT & HC)|(HN & HO & HX)]]; (split; [exact E|]).
    + left. destruct (F2_left _ _ _ _ F HT) as ([k v] & HV & E1 & HW). cbn [fst snd] in *. subst k. exists (AtValue v). split; [apply in_map_iff; exists (fst gu, v); auto|].
      rewrite Forall_forall in O, W. eapply O; [now apply in_map|apply (W _ HT)|exact HC|exact HW].
    + right. split; [|auto]. rewrite keys_of. now rewrite (wrote_field_fst l vs F).
Qed.
Lemma read_position gs : Forall ok (map snd gs) -> forall used vs ds, Forall (fun tx => well_named (fst tx)) used -> Forall2 wrote used vs ->
  Forall3 (fun (gu : str * ty) (tx : ty * data) (ny : str * data) => fst ny = fst gu /\ converts (fst tx) (snd tx) (snd gu) (snd ny)) gs used ds ->
  Forall3 (fun (ft : str * ty) (q : place unit) (nx : str * data) => fst nx = fst ft /\ reads (snd ft) q (snd nx)) gs (map AtValue vs) ds.
Proof.
  intros O used vs ds W F C. revert vs F O W. induction C as [|g a y gs l ys [E H] _ IH]; intros vs F O W; inv F; cbn [map]; constructor; inv O; inv W.
  - split; [exact E|]. match goal with H : ok _ |- _ => eapply H; eassumption end.
  - apply IH; assumption.
Qed.

Lemma never_bits t x v : writes t x v -> forall b, vdef_of v <> DBits b.
Proof.
  intros W b E. inv W; try discriminate; match goal with H : spelt _ _ |- _ => inv H end; discriminate.
Qed.
Lemma into_newtype u (v : value unit) y : (forall u', u <> TyOption u') -> (forall b, vdef_of v <> DBits b) -> reads u (AtValue v) y -> reads u (InNewtype (vdef_of v)) y.
Proof.
  intros NO NB R. destruct v as [d c]. cbn [vdef_of] in *. inv R; try (exfalso; eapply NO; reflexivity).
  - now apply R_bool.
  - eapply R_int; eassumption.
  - now apply R_char.
  - now apply R_string.
  - now apply R_string_char.
  - eapply R_string_256; eassumption.
  - eapply R_unit; eassumption.
  - eapply R_unit_struct; eassumption.
  - eapply R_bytes; eassumption.
  - eapply R_bytes_256; eassumption.
  - eapply R_vec; eassumption.
  - eapply R_tuple; eassumption.
  - eapply R_tuple_struct; eassumption.
  - eapply R_map; eassumption.
  - eapply R_map_char; eassumption.
  - eapply R_newtype; [|eassumption]. destruct d; cbn [content_at] in *; try discriminate; assumption.
  - eapply R_struct_named; [|eassumption..]. destruct d; cbn [struct_at] in *; try discriminate; try assumption. exfalso. eapply NB. reflexivity.
  - eapply R_struct_unnamed; [|eassumption..]. destruct d; cbn [struct_at] in *; try discriminate; assumption.
  - eapply R_enum_unit; eassumption.
  - eapply R_enum_newtype; eassumption.
  - eapply R_enum_tuple; eassumption.
  - eapply R_enum_struct; eassumption.
  - eapply R_value; eassumption.
  - eapply R_composite; eassumption.
  - eapply R_composite_256; eassumption.
  - eapply R_composite_of_bits; eassumption.
  - eapply R_variant; eassumption.
  - eapply R_variant_map; eassumption.
  - eapply R_prim; eassumption.
  - eapply R_prim_256; eassumption.
  - eapply R_prim_bytes; eassumption.
Qed.

Lemma entries_listed t x l : entries t x l -> listed t x (map snd l).
Proof. intro E. right. eauto. Qed.
Lemma wn_snd (l : list (str * (ty * data))) : Forall (fun tx : ty * data => well_named (fst tx)) (map snd l) -> Forall (fun kt : str * (ty * data) => well_named (fst (snd kt))) l.
Proof. now rewrite Forall_map. Qed.

Theorem all_ok u : ok u.
Proof.
  induction u as [|sg w| | | | |u IH|u IH|us IH|u IH|u IH| |u IH|us IH|gs IH|us IH| | | |] using ty_ind'; intros t x y v WN C W; inv C.
  - inv W. now apply R_bool.
  - inv W; (eapply R_int; [reflexivity|reflexivity|assumption]).
  - inv W. apply R_char. left. reflexivity.
  - inv W. apply R_char. right. reflexivity.
  - inv W. now apply R_string_char.
  - inv W. now apply R_string.
  - match goal with H : listed _ _ _ |- _ => rename H into HL end. destruct (listed_written _ _ _ _ HL W) as (c & -> & F). inv F. eapply R_unit; [reflexivity|auto].
  - match goal with H : listed _ _ _ |- _ => rename H into HL end. destruct (listed_written _ _ _ _ HL W) as (c & -> & F). eapply R_bytes; [reflexivity|]. match goal with H : Forall2 _ _ bs |- _ => rename H into HB end. clear -F HB. revert bs HB. induction F as [|tx v l vs HW _ IH]; intros bs B; inv B; constructor; [|auto].
    match goal with H : _ /\ _ |- _ => destruct H as [(w & ->) L] end. cbn [fst snd] in HW. unfold wrote in HW. cbn [fst snd] in HW. inv HW. assert (n = y) by lia. subst. auto.
  - inv W. apply R_none. reflexivity.
  - inv W. eapply R_some; [reflexivity|]. eapply IH; [|eassumption|eassumption]. exact WN.
  - match goal with H : In (_, _) vs |- _ => rename H into HI end. destruct WN as [N WN]. destruct (enum_written _ _ _ _ _ N HI W) as (c & -> & F & _). destruct (F [] Be_unit) as (vs' & -> & F'). inv F'. apply R_none. reflexivity.
  - match goal with H : In (_, _) vs |- _ => rename H into HI end. pose proof WN as [N _]. destruct (enum_written _ _ _ _ _ N HI W) as (c & -> & F & _). destruct (F _ (Be_newtype _ _)) as (vs' & -> & F'). inv F'. match goal with H : Forall2 _ [] _ |- _ => inv H end.
    eapply R_some; [reflexivity|]. eapply IH; [|eassumption|eassumption].
    pose proof (body_well_named _ _ _ _ _ WN HI (or_introl (Be_newtype t0 x0))) as WB. exact (Forall_inv WB).
  - match goal with H : listed _ _ _ |- _ => rename H into HL end. destruct (listed_written _ _ _ _ HL W) as (c & -> & F). eapply R_vec; [reflexivity|]. eapply read_all; [exact IH| |exact F|eassumption]. eapply list_well_named; eassumption.
  - match goal with H : listed _ _ _ |- _ => rename H into HL end. destruct (listed_written _ _ _ _ HL W) as (c & -> & F). eapply R_tuple; [reflexivity|]. eapply read_each; [exact IH| |exact F|eassumption]. eapply list_well_named; eassumption.
  - match goal with H : entries _ _ _ |- _ => rename H into HL end. destruct (entries_written _ _ _ _ HL W) as (vs & -> & F). eapply R_map; [reflexivity| |eassumption]. eapply read_entries; [exact IH| |exact F|eassumption].
    apply wn_snd. eapply list_well_named; [eapply entries_listed; eassumption|exact WN].
  - match goal with H : entries _ _ _ |- _ => rename H into HL end. destruct (entries_written _ _ _ _ HL W) as (vs & -> & F). eapply R_map_char; [reflexivity| | |eassumption].
    + match goal with H : Forall _ l |- _ => rename H into K end. clear -K F. induction F as [|a b l vs [E _] _ IH]; constructor; inv K; [now rewrite E|auto].
    + eapply read_entries; [exact IH| |exact F|eassumption]. apply wn_snd. eapply list_well_named; [eapply entries_listed; eassumption|exact WN].
  - match goal with H : listed _ _ _ |- _ => rename H into HL end. destruct (listed_written _ _ _ _ HL W) as (c & -> & F). inv F. eapply R_unit_struct; [reflexivity|auto].
  - assert (B : forall b, vdef_of v <> DBits b) by (eapply never_bits; exact W). eapply R_newtype with (q := InNewtype (vdef_of v)).
    + destruct v as [[c|n c|b|p] ctx]; try reflexivity. exfalso. eapply B. reflexivity.
    + apply into_newtype; [assumption|exact B|]. eapply IH; eassumption.
  - match goal with H : listed _ _ _ |- _ => rename H into HL end. destruct (listed_written _ _ _ _ HL W) as (c & -> & F). eapply R_tuple_struct; [reflexivity|]. eapply read_each; [exact IH| |exact F|eassumption]. eapply list_well_named; eassumption.
  - match goal with H : entries _ _ _ |- _ => rename H into HL end. destruct (entries_written _ _ _ _ HL W) as (vs & -> & F). eapply read_named; [exact IH| |exact F|eassumption|eassumption|reflexivity]. apply wn_snd. eapply list_well_named; [eapply entries_listed; eassumption|exact WN].
  - match goal with H : elements _ _ _ |- _ => rename H into HL end. destruct (elements_written _ _ _ _ HL W) as (vs & -> & F). apply Forall2_app_inv_l in F as (v1 & v2 & F1 & F2 & ->).
    assert (WL : Forall (fun tx => well_named (fst tx)) used) by (apply (proj1 (Forall_app _ used rest)); eapply list_well_named; [left; exact HL|exact WN]).
    eapply R_struct_unnamed with (all := false) (used := map AtValue v1) (rest := map AtValue v2); [cbn; rewrite map_app; reflexivity|discriminate|].
    eapply read_position; eassumption.
  - match goal with H : In (_, _) vs |- _ => rename H into HI end. pose proof WN as [N _]. edestruct body_listed_written as (c & -> & F); [eassumption|eapply enum_written; eassumption|]. inv F. eapply R_enum_unit; [reflexivity|assumption|auto].
  - match goal with H : In (_, _) vs |- _ => rename H into HI end. pose proof WN as [N _]. edestruct body_listed_written as (c & -> & F); [eassumption|eapply enum_written; eassumption|]. eapply R_enum_tuple; [reflexivity|eassumption|].
    eapply read_each; [|eapply body_well_named; eassumption|exact F|eassumption]. rewrite Forall_forall in IH. match goal with H : In (n, VsTuple _) us |- _ => exact (IH _ H) end.
  - match goal with H : In (_, _) vs |- _ => rename H into HI end. pose proof WN as [N _]. match goal with H : body_entries _ _ _ |- _ => rename H into HB end. destruct (enum_written _ _ _ _ _ N HI W) as (c & -> & _ & F). destruct (F _ HB) as (vs' & -> & F'). eapply R_enum_struct; [reflexivity|eassumption|].
    eapply read_named; [| |exact F'|eassumption|eassumption|reflexivity].
    + rewrite Forall_forall in IH. match goal with H : In (n, VsStruct _) us |- _ => exact (IH _ H) end.
    + apply wn_snd. eapply body_well_named; [exact WN|exact HI|right; eauto].
  - match goal with H : In (_, _) vs |- _ => rename H into HI end. pose proof WN as [N _]. match goal with H : body_elements _ _ _ |- _ => rename H into HB end. destruct (enum_written _ _ _ _ _ N HI W) as (c & -> & F & _). destruct (F _ HB) as (vs' & -> & F'). eapply R_enum_struct; [reflexivity|eassumption|].
    apply Forall2_app_inv_l in F' as (v1 & v2 & F1 & F2 & ->).
    assert (WL : Forall (fun tx => well_named (fst tx)) used) by (apply (proj1 (Forall_app _ used rest)); eapply body_well_named; [exact WN|exact HI|left; eassumption]).
    eapply R_struct_unnamed with (all := false) (used := map AtValue v1) (rest := map AtValue v2); [cbn; rewrite map_app; reflexivity|discriminate|].
    eapply read_position; [|exact WL|exact F1|eassumption]. rewrite Forall_forall in IH. match goal with H : In (n, VsStruct _) us |- _ => exact (IH _ H) end.
Qed.

(** ** Types that fit *)
Lemma Forall2_len {A B} (R : A -> B -> Prop) l l' : Forall2 R l l' -> length l = length l'.
Proof. induction 1; cbn [length]; congruence. Qed.
Lemma combine_app_eq {A B} (a1 a2 : list A) (b1 b2 : list B) : length a1 = length b1 -> combine (a1 ++ a2) (b1 ++ b2) = combine a1 b1 ++ combine a2 b2.
Proof. revert b1. induction a1 as [|x a1 IH]; intros [|y b1] E; cbn [length app combine] in *; try discriminate; [reflexivity|]. f_equal. apply IH. congruence. Qed.
Definition goes (u : ty) : Prop := forall t x, fits t u -> well_named t -> data_of t x -> exists y, converts t x u y /\ data_of u y.

Lemma wn_combine ts (xs : list data) : Forall2 data_of ts xs -> Forall well_named ts -> Forall (fun tx => well_named (fst tx) /\ data_of (fst tx) (snd tx)) (combine ts xs).
Proof. induction 1 as [|t x ts xs H _ IH]; intro W; cbn [combine]; constructor; inv W; auto. Qed.

Lemma goes_all u (l : list (ty * data)) : goes u -> Forall (fun tx => fits (fst tx) u) l -> Forall (fun tx => well_named (fst tx) /\ data_of (fst tx) (snd tx)) l ->
  exists ys, Forall2 (fun tx y => converts (fst tx) (snd tx) u y) l ys /\ Forall (data_of u) ys.
Proof.
  intros G F D. induction l as [|[t x] l IH]; [exists []; split; constructor|]. inv F. inv D. destruct IH as (ys & I1 & I2); [assumption..|].
  cbn [fst snd] in *. match goal with H : _ /\ _ |- _ => destruct H as [W X] end. destruct (G t x) as (y & C & Y); [assumption..|]. exists (y :: ys). split; constructor; assumption.
Qed.
Lemma fits_combine ts u (xs : list data) : Forall (fun t => fits t u) ts -> Forall (fun tx : ty * data => fits (fst tx) u) (combine ts xs).
Proof. revert xs. induction ts as [|t ts IH]; intros [|x xs] F; cbn [combine]; constructor; inv F; auto. Qed.

Lemma goes_each us : Forall goes us -> forall ts xs, Forall2 fits ts us -> Forall well_named ts -> Forall2 data_of ts xs ->
  exists ys, Forall3 (fun u tx y => converts (fst tx) (snd tx) u y) us (combine ts xs) ys /\ Forall2 data_of us ys.
Proof.
  intros G ts xs F. revert xs G. induction F as [|t u ts us H _ IH]; intros xs G W D; inv D; cbn [combine]; [exists []; split; constructor|]. inv G. inv W.
  match goal with H : goes u, K : data_of t ?x |- _ => destruct (H t x) as (y' & C & Y); [assumption..|] end. edestruct IH as (ys & I1 & I2); [eassumption..|]. exists (y' :: ys). split; constructor; assumption.
Qed.

Lemma items_fst fs ds : Forall2 (fun (ft : str * ty) (nx : str * data) => fst nx = fst ft /\ data_of (snd ft) (snd nx)) fs ds -> map fst (field_items fs ds) = map fst fs.
Proof. unfold field_items. induction 1; cbn [combine map fst]; [reflexivity|now f_equal]. Qed.
Lemma items_in fs ds g t : Forall2 (fun (ft : str * ty) (nx : str * data) => fst nx = fst ft /\ data_of (snd ft) (snd nx)) fs ds -> In (g, t) fs -> exists x, In (g, (t, x)) (field_items fs ds) /\ data_of t x.
Proof.
  unfold field_items. induction 1 as [|[n a] [n' x] fs ds [E D] _ IH]; intro HI; [destruct HI|]. cbn [combine map fst snd] in *. destruct HI as [K|HI]; [injection K as -> ->; exists x; split; [left; reflexivity|exact D]|].
  destruct (IH HI) as (y & H1 & H2). exists y. split; [right; exact H1|exact H2].
Qed.
Lemma goes_fields gs : Forall goes (map snd gs) -> forall fs ds, fields_fit fits fs gs -> Forall well_named (map snd fs) ->
  Forall2 (fun (ft : str * ty) (nx : str * data) => fst nx = fst ft /\ data_of (snd ft) (snd nx)) fs ds ->
  exists es, Forall2 (fun (gu : str * ty) (ny : str * data) => fst ny = fst gu /\
      ((exists tx, In (fst gu, tx) (field_items fs ds) /\ converts (fst tx) (snd tx) (snd gu) (snd ny)) \/
       (~ In (fst gu) (map fst (field_items fs ds)) /\ (exists u, snd gu = TyOption u) /\ snd ny = XNone))) gs es /\
    Forall2 (fun (ft : str * ty) (nx : str * data) => fst nx = fst ft /\ data_of (snd ft) (snd nx)) gs es.
Proof.
  intros G fs ds [F] W D. induction gs as [|[g u] gs IH]; [exists []; split; constructor|]. cbn [map snd] in G. inv G. inv F. destruct IH as (es & I1 & I2); [assumption..|]. cbn [fst snd] in *.
  match goal with H : _ \/ _ |- _ => destruct H as [(t & HI & HF)|(HN & u' & ->)] end.
  - destruct (items_in fs ds g t D HI) as (x & HX & DX). match goal with H : goes u |- _ => destruct (H t x HF) as (y & C & Y) end; [|exact DX|].
    + rewrite Forall_forall in W. apply W. change t with (snd (g, t)). now apply in_map.
    + exists ((g, y) :: es). split; constructor; try assumption; cbn [fst snd]; split; try reflexivity; try assumption. left. exists (t, x). auto.
  - exists ((g, XNone) :: es). split; constructor; try assumption; cbn [fst snd]; split; try reflexivity; [|constructor]. right. rewrite (items_fst fs ds D). split; [exact HN|]. split; [eauto|reflexivity].
Qed.

Lemma goes_position gs : Forall goes (map snd gs) -> forall ts xs, Forall2 (fun t (gu : str * ty) => fits t (snd gu)) ts gs -> Forall well_named ts -> Forall2 data_of ts xs ->
  exists ds, Forall3 (fun (gu : str * ty) (tx : ty * data) (ny : str * data) => fst ny = fst gu /\ converts (fst tx) (snd tx) (snd gu) (snd ny)) gs (combine ts xs) ds /\
    Forall2 (fun (ft : str * ty) (nx : str * data) => fst nx = fst ft /\ data_of (snd ft) (snd nx)) gs ds.
Proof.
  intros G ts xs F. revert xs G. induction F as [|t [g u] ts gs H _ IH]; intros xs G W D; inv D; cbn [combine]; [exists []; split; constructor|]. cbn [map snd] in *. inv G. inv W.
  match goal with H : goes u, K : data_of t ?x |- _ => destruct (H t x) as (y' & C & Y); [assumption..|] end. edestruct IH as (ys & I1 & I2); [eassumption..|]. exists ((g, y') :: ys). split; constructor; try assumption; split; auto.
Qed.

Lemma goes_entries u (l : list (str * (ty * data))) : goes u -> Forall (fun kt => fits (fst (snd kt)) u) l -> Forall (fun kt => well_named (fst (snd kt)) /\ data_of (fst (snd kt)) (snd (snd kt))) l ->
  exists kys, Forall2 (fun (kt : str * (ty * data)) (ky : str * data) => fst ky = fst kt /\ converts (fst (snd kt)) (snd (snd kt)) u (snd ky)) l kys /\ Forall (fun ky => data_of u (snd ky)) kys.
Proof.
  intros G F D. induction l as [|[k [t x]] l IH]; [exists []; split; constructor|]. inv F. inv D. destruct IH as (ys & I1 & I2); [assumption..|].
  cbn [fst snd] in *. match goal with H : _ /\ _ |- _ => destruct H as [W X] end. destruct (G t x) as (y & C & Y); [assumption..|]. exists ((k, y) :: ys). split; constructor; auto.
Qed.
Lemma collects_all (P : str * data -> Prop) kys m : collects kys m -> Forall P kys -> Forall P m.
Proof.
  intros [_ H] F. apply Forall_forall. intros [k x] HI. apply H in HI. rewrite Forall_forall in F. apply F. unfold last_given in HI. destruct HI as (a & b & -> & _). apply in_app_iff. right. left. reflexivity.
Qed.
Lemma collects_ex kys : exists m, collects kys m.
Proof. exists (built kys). now apply collects_built. Qed.

Lemma int_fits sg w sg' w' z : (sg = sg' /\ (w <= w')%N) \/ (sg = false /\ sg' = true /\ (w < w')%N) -> (0 < w)%N -> int_range sg w z -> int_range sg' w' z.
Proof.
  assert (M : forall a b : N, (a <= b)%N -> (2 ^ Z.of_N a <= 2 ^ Z.of_N b)%Z) by (intros; apply Z.pow_le_mono_r; lia).
  assert (M1 : forall a b : N, (0 < a)%N -> (a <= b)%N -> (2 ^ (Z.of_N a - 1) <= 2 ^ (Z.of_N b - 1))%Z) by (intros; apply Z.pow_le_mono_r; lia).
  assert (M2 : forall a b : N, (a < b)%N -> (2 ^ Z.of_N a <= 2 ^ (Z.of_N b - 1))%Z) by (intros; apply Z.pow_le_mono_r; lia).
  intros [[<- L]|(-> & -> & L)] P R; unfold int_range in *; [destruct sg|].
  - pose proof (M1 w w' P L). lia.
  - pose proof (M w w' L). lia.
  - pose proof (M2 w w' L). pose proof (Z.pow_nonneg 2 (Z.of_N w' - 1)). lia.
Qed.

Lemma nothing_listed t x : In t [TyUnit; TyUnitStruct; TyTuple []; TyTupleStruct []; TyStruct []] -> data_of t x -> listed t x [].
Proof.
  intros H D. repeat destruct H as [<-|H]; try destruct H; inv D.
  - left. constructor.
  - left. constructor.
  - match goal with H : Forall2 _ [] _ |- _ => inv H end. left. apply (El_tuple [] []).
  - match goal with H : Forall2 _ [] _ |- _ => inv H end. left. apply (El_tuple_struct [] []).
  - match goal with H : Forall2 _ [] _ |- _ => inv H end. right. exists []. split; [apply (En_struct [] [])|reflexivity].
Qed.

Lemma bytes_range bs : Forall (fun b => (b < 256)%N) bs -> Forall (fun tx : ty * data => well_named (fst tx) /\ data_of (fst tx) (snd tx)) (map (fun b => (TyInt false 8, XInt (Z.of_N b))) bs).
Proof. induction 1; cbn [map]; constructor; [|assumption]. cbn [fst snd]. split; [exact I|]. constructor. unfold int_range. change (2 ^ Z.of_N 8)%Z with 256%Z. lia. Qed.

Theorem all_go u : goes u.
Proof.
  induction u as [|sg w| | | | |u IH|u IH|us IH|u IH|u IH| |u IH|us IH|gs IH|us IH| | | |] using ty_ind'; intros t x F W D; inv F;
    try match goal with H : In ?a [TyUnit; TyUnitStruct] |- _ => repeat destruct H as [H|H]; try discriminate H; try destruct H end.
  - inv D. eexists. split; constructor.
  - inv D. eexists. split; constructor; eapply int_fits; eassumption.
  - inv D. eexists. split; constructor.
  - inv D. eexists. split; constructor.
  - inv D. eexists. split; constructor.
  - eexists. split; [constructor; eapply nothing_listed; eassumption|constructor].
  - inv D. exists (XBytes bs). split; [|now constructor]. eapply C_bytes; [left; constructor|]. match goal with H : Forall _ bs |- _ => induction H; cbn [map]; constructor; [|assumption] end. split; [exists 8%N; reflexivity|assumption].
  - inv D. match goal with H : Forall _ xs |- _ => rename H into FX end.
    assert (E : exists bs, Forall2 (fun (tx : ty * data) b => (exists w, tx = (TyInt false w, XInt (Z.of_N b))) /\ (b < 256)%N) (map (pair (TyInt false 8)) xs) bs /\ Forall (fun b => (b < 256)%N) bs).
    { clear -FX. induction FX as [|x xs H _ (bs & I1 & I2)]; [exists []; split; constructor|]. inv H. unfold int_range in *. change (2 ^ Z.of_N 8)%Z with 256%Z in *.
      exists (Z.to_N z :: bs). cbn [map]. split; constructor; try assumption; [|lia]. split; [exists 8%N; rewrite Z2N.id by lia; reflexivity|lia]. }
    destruct E as (bs & E1 & E2). exists (XBytes bs). split; [|now constructor]. eapply C_bytes; [left; constructor|exact E1].
  - inv D; [eexists; split; constructor|]. match goal with H : data_of _ _ |- _ => edestruct (IH _ _ ltac:(eassumption) W H) as (y & C & Y) end. eexists. split; constructor; eassumption.
  - inv D. destruct (goes_all u (map (fun b => (TyInt false 8, XInt (Z.of_N b))) bs) IH) as (ys & C & Y).
    + apply Forall_map. apply Forall_forall. intros b _. assumption.
    + now apply bytes_range.
    + exists (XVec ys). split; [eapply C_vec; [left; constructor|exact C]|now constructor].
  - inv D. destruct (goes_all u (map (pair t0) xs) IH) as (ys & C & Y).
    + apply Forall_map. apply Forall_forall. intros b _. assumption.
    + apply Forall_map. eapply Forall_impl; [|eassumption]. intros a Ha. split; [exact W|exact Ha].
    + exists (XVec ys). split; [eapply C_vec; [left; constructor|exact C]|now constructor].
  - assert (E : exists xs, Forall2 data_of ts xs /\ listed t x (combine ts xs) /\ Forall well_named ts).
    { match goal with H : In t _ |- _ => repeat destruct H as [<-|H]; try destruct H end; inv D; eexists; (split; [eassumption|]); (split; [left; constructor|]); cbn [well_named] in W; now apply wn_list. }
    destruct E as (xs & DX & HL & WT). destruct (goes_all u (combine ts xs) IH) as (ys & C & Y); [now apply fits_combine|now apply wn_combine|].
    exists (XVec ys). split; [eapply C_vec; eassumption|now constructor].
  - assert (E : exists xs, Forall2 data_of ts xs /\ listed t x (combine ts xs) /\ Forall well_named ts).
    { match goal with H : In t _ |- _ => repeat destruct H as [<-|H]; try destruct H end; inv D; eexists; (split; [eassumption|]); (split; [left; constructor|]); cbn [well_named] in W; now apply wn_list. }
    destruct E as (xs & DX & HL & WT). edestruct (goes_each us IH ts xs) as (ys & C & Y); [assumption..|].
    exists (XTuple ys). split; [eapply C_tuple; eassumption|now constructor].
  - assert (E : exists m, x = XMap m /\ entries t x (map (fun kx => (fst kx, (t', snd kx))) m) /\ Forall (fun kx => data_of t' (snd kx)) m /\ well_named t').
    { match goal with H : In t _ |- _ => repeat destruct H as [<-|H]; try destruct H end; inv D; exists m; (split; [reflexivity|]); (split; [constructor|]); (split; [|exact W]); [assumption|].
      eapply Forall_impl; [|eassumption]. intros a [_ Ha]. exact Ha. }
    destruct E as (m & -> & HE & HD & HW). destruct (goes_entries u (map (fun kx => (fst kx, (t', snd kx))) m) IH) as (kys & C & Y).
    + apply Forall_map. apply Forall_forall. intros b _. assumption.
    + apply Forall_map. cbn [fst snd]. eapply Forall_impl; [|exact HD]. auto.
    + destruct (collects_ex kys) as [m' K]. exists (XMap m'). split; [eapply C_map; eassumption|]. constructor; [exact (proj1 K)|eapply collects_all; eassumption].
  - inv D. match goal with H : Forall _ fs |- _ => rename H into FF end. destruct W as [N W]. match goal with H : Forall2 _ fs _ |- _ => rename H into FD end.
    destruct (goes_entries u (field_items fs ds) IH) as (kys & C & Y).
    + clear -FF. unfold field_items. revert ds. induction FF as [|[n t] fs H _ IH]; intros [|[n' x] ds]; cbn [combine map]; constructor; auto.
    + apply wn_fields in W. clear -FD W. unfold field_items. revert W. induction FD as [|[n t] [n' x] fs ds [E H] _ IH]; intro W; cbn [combine map fst snd] in *; constructor; inv W; auto.
    + destruct (collects_ex kys) as [m' K]. exists (XMap m'). split; [eapply C_map; [constructor|eassumption|exact K]|]. constructor; [exact (proj1 K)|eapply collects_all; eassumption].
  - inv D. match goal with H : Forall _ m |- _ => rename H into FM end. destruct (goes_entries u (map (fun kx => (fst kx, (t0, snd kx))) m) IH) as (kys & C & Y).
    + apply Forall_map. apply Forall_forall. intros b _. assumption.
    + apply Forall_map. cbn [fst snd]. eapply Forall_impl; [|exact FM]. intros a [_ Ha]. split; [exact W|exact Ha].
    + destruct (collects_ex kys) as [m' K]. exists (XMap m').
      assert (SC : Forall (fun kt : str * (ty * data) => exists c, fst kt = [c]) (map (fun kx => (fst kx, (t0, snd kx))) m)).
      { apply Forall_map. cbn [fst]. eapply Forall_impl; [|exact FM]. intros a [Ha _]. exact Ha. }
      split; [eapply C_map_char; [constructor|exact SC|eassumption|exact K]|]. constructor; [exact (proj1 K)|]. eapply collects_all; [exact K|].
      clear -C Y SC. revert Y SC. induction C as [|a b l kys [E _] _ IH]; intros Y SC; constructor; inv Y; inv SC; [split; [now rewrite E|assumption]|auto].
  - eexists. split; [constructor; eapply nothing_listed; eassumption|constructor].
  - edestruct IH as (y & C & Y); [eassumption..|]. exists (XNewtype y). split; constructor; assumption.
  - assert (E : exists xs, Forall2 data_of ts xs /\ listed t x (combine ts xs) /\ Forall well_named ts).
    { match goal with H : In t _ |- _ => repeat destruct H as [<-|H]; try destruct H end; inv D; eexists; (split; [eassumption|]); (split; [left; constructor|]); cbn [well_named] in W; now apply wn_list. }
    destruct E as (xs & DX & HL & WT). edestruct (goes_each us IH ts xs) as (ys & C & Y); [assumption..|].
    exists (XTupleStruct ys). split; [eapply C_tuple_struct; eassumption|now constructor].
  - inv D. destruct W as [N W]. apply wn_fields in W. edestruct (goes_fields gs IH fs ds) as (es & C & Y); [assumption..|]. exists (XStruct es). split; [|now constructor].
    eapply C_struct; [constructor| |exact C]. erewrite items_fst by eassumption. exact N.
  - assert (E : exists xs rs, Forall2 data_of ts xs /\ elements t x (combine ts xs ++ combine rest rs) /\ Forall well_named ts).
    { match goal with H : In t _ |- _ => repeat destruct H as [<-|H]; try destruct H end; inv D; match goal with H : Forall2 _ (ts ++ rest) _ |- _ => apply Forall2_app_inv_l in H as (xs1 & xs2 & D1 & D2 & ->) end; exists xs1, xs2;
        (split; [exact D1|]); cbn [well_named] in W; apply wn_list in W; apply Forall_app in W as [W _]; (split; [|exact W]);
        rewrite <- combine_app_eq by (exact (Forall2_len _ _ _ D1)); constructor. }
    destruct E as (xs & rs & DX & HL & WT). edestruct (goes_position gs IH ts xs) as (ds & C & Y); [eassumption..|]. exists (XStruct ds). split; [eapply C_struct_position; eassumption|now constructor].
  - match goal with H : Forall _ vs |- _ => rename H into FV end. rewrite Forall_forall in FV, IH. pose proof W as [N WV].
    inv D; match goal with H : In _ vs |- _ => rename H into HI end; destruct (FV _ HI) as (b' & HU & BF); cbn [fst snd] in *; destruct (wn_enum vs n _ WV HI) as [W1 W2]; cbn [vs_tys] in W1; pose proof (IH _ HU) as IB; inv BF; cbn [snd vs_tys] in IB.
    + exists (XEnum n VsUnit). split; [eapply C_enum_unit; [exact HI|left; constructor|exact HU]|now constructor].
    + match goal with H : data_of _ _ |- _ => rename H into DX end. match goal with H : fits _ _ |- _ => rename H into FT end. destruct (Forall_inv IB _ _ FT (Forall_inv W1) DX) as (y & C & Y).
      exists (XEnum n (VsStruct [(g, y)])). split.
      * eapply C_enum_struct_position with (used := [(_, _)]) (rest := []); [exact HI|apply Be_newtype|exact HU|]. constructor; [split; [reflexivity|exact C]|constructor].
      * eapply D_enum_struct; [exact HU|]. constructor; [split; [reflexivity|exact Y]|constructor].
    + edestruct (goes_each us0 IB ts xs) as (ys & C & Y); [assumption..|]. exists (XEnum n (VsTuple ys)). split; [eapply C_enum_tuple; [exact HI|left; constructor|exact HU|exact C]|eapply D_enum_tuple; eassumption].
    + edestruct (goes_fields gs IB fs ds) as (es & C & Y); [assumption..|]. exists (XEnum n (VsStruct es)). split; [|eapply D_enum_struct; eassumption].
      eapply C_enum_struct; [exact HI|constructor|exact HU| |exact C]. erewrite items_fst by eassumption. exact W2.
Qed.
