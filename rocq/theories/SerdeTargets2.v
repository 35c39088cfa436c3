(** * SerdeTargets2: structs, enums, newtypes and scalars; what survives reading a value as a value. *)
From Verif Require Import Base Value Spec_Value ValueFacts Scale Serde SerdeFacts Spec_Serde SerdeRt SerdeUni SerdeMore SerdeTargets.
From Coq Require Import Permutation.

(** ** Structs *)
Lemma fields_given_spec {T} (fs : list (str * ty)) (l : list (str * value T)) ds : NoDup (map fst fs) ->
  (visit_struct (map (fun nt => match nt with (n, t') => (n, de t') end) fs) (map (fun nt => match nt with (n, t') => (n, missing t') end) fs) (composite_any (Named l)) = Ok ds
   <-> fields_by_name fs l ds).
Proof.
  intro ND. rewrite visit_struct_named by exact ND. unfold fields_by_name.
  assert (HK : filter (known fs) (map fst l) = filter (fun k => existsb (str_eqb k) (map fst fs)) (map fst l)).
  { apply filter_ext. intro k. unfold known. clear. induction fs as [|[n t] fs IH]; [reflexivity|]. cbn [find_field map fst existsb]. destruct (str_eqb k n); [reflexivity|exact IH]. }
  rewrite HK. split; intros (H1 & H2 & H3); (split; [exact H1|]); (split; [|exact H3]); clear -H2; induction H2 as [|[n t] [n' d] fs ds (HA & HB) _ IH]; constructor; try exact IH; cbn [fst snd] in *; (split; [exact HA|]).
  - destruct HB as [HB|(HB & HM)]; [left; exact HB|right]. split; [exact HB|]. destruct t; try discriminate. injection HM as <-. cbn. eauto.
  - destruct HB as [HB|(HB & (u & ->) & ->)]; [left; exact HB|right]. split; [exact HB|reflexivity].
Qed.

Lemma de_struct_named {T} (fs : list (str * ty)) (l : list (str * value T)) ctx d : NoDup (map fst fs) ->
  from_value (TyStruct fs) (Val (DComposite (Named l)) ctx) = Ok d <-> exists ds, d = XStruct ds /\ fields_by_name fs l ds.
Proof.
  intro ND. unfold from_value. cbn [de deserialize vdef_of vdef_de vdef_any bind]. rewrite rmap_ok. split.
  - intros (ds & H & ->). exists ds. split; [reflexivity|]. apply fields_given_spec; assumption.
  - intros (ds & -> & H). exists ds. split; [apply fields_given_spec; assumption|reflexivity].
Qed.

Lemma visit_struct_unnamed {T} (fs : list (str * ty)) ms (l : list (value T)) ds :
  (visit_struct (map (fun nt => match nt with (n, t') => (n, de t') end) fs) ms (composite_any (Unnamed l)) = Ok ds
   <-> fields_by_position fs l ds).
Proof.
  cbn [composite_any]. change (visit_struct ?a ?b (VSeq ?s ?l)) with (rmap (combine (map fst a)) (visit_elems (map snd a) (VSeq s l))). rewrite rmap_ok.
  assert (E1 : map snd (map (fun nt : str * ty => match nt with (n, t') => (n, de (T := T) t') end) fs) = map de (map snd fs)) by (rewrite !map_map; apply map_ext; intros [n t]; reflexivity).
  assert (E2 : map fst (map (fun nt : str * ty => match nt with (n, t') => (n, de (T := T) t') end) fs) = map fst fs) by (rewrite map_map; apply map_ext; intros [n t]; reflexivity).
  rewrite E1, E2. unfold fields_by_position. split.
  - intros (xs & H & ->). apply visit_elems_spec in H as (u & w & -> & HL & _ & HF). rewrite map_length in HL. exists u, w. split; [reflexivity|]. split; [exact HL|].
    clear E1 E2. revert u HL xs HF. induction fs as [|[n t] fs IH]; intros [|v u] HL xs HF; cbn [map snd fst combine length] in *; try discriminate; [constructor|].
    injection HL as HL. inversion HF as [|? x ? xs' H1 H2]; subst. constructor; [cbn [fst snd] in *; auto|]. apply IH; assumption.
  - intros (u & w & -> & HL & HF). exists (map snd ds). split.
    + apply visit_elems_spec. exists u, w. rewrite map_length. split; [reflexivity|]. split; [exact HL|]. split; [discriminate|].
      clear E1 E2. revert u HL ds HF. induction fs as [|[n t] fs IH]; intros [|v u] HL ds HF; cbn [map snd fst combine length] in *; try discriminate; inversion HF as [|? [n' x] ? ds' H1 H2]; subst; cbn [map]; constructor; [apply H1|].
      apply IH; [injection HL as HL; exact HL|exact H2].
    + clear E1 E2. revert u HL ds HF. induction fs as [|[n t] fs IH]; intros [|v u] HL ds HF; cbn [map snd fst combine length] in *; try discriminate; inversion HF as [|? [n' x] ? ds' H1 H2]; subst; cbn [map combine fst snd] in *; [reflexivity|].
      destruct H1 as [-> _]. f_equal. injection HL as HL. apply (IH u); assumption.
Qed.

Lemma de_struct_unnamed {T} (fs : list (str * ty)) (l : list (value T)) ctx d :
  from_value (TyStruct fs) (Val (DComposite (Unnamed l)) ctx) = Ok d <-> exists ds, d = XStruct ds /\ fields_by_position fs l ds.
Proof.
  unfold from_value. cbn [de deserialize vdef_of vdef_de vdef_any bind]. rewrite rmap_ok. split.
  - intros (ds & H & ->). exists ds. split; [reflexivity|]. apply visit_struct_unnamed in H; assumption.
  - intros (ds & -> & H). exists ds. split; [apply visit_struct_unnamed; assumption|reflexivity].
Qed.

Lemma de_struct_other {T} fs (v : value T) : (forall c, vdef_of v <> DComposite c) -> (forall b, vdef_of v <> DBits b) -> exists e, from_value (TyStruct fs) v = Err e.
Proof.
  intros H HB. destruct v as [[c|n c|b|p] ctx]; [destruct (H c eq_refl)| |destruct (HB b eq_refl)|].
  - exists DType. reflexivity.
  - unfold from_value. cbn [de deserialize vdef_of vdef_de vdef_any bind]. destruct p; exists DType; reflexivity.
Qed.

(** ** Enums *)
Lemma de_enum_spec {T} vs (v : value T) d : NoDup (map fst vs) -> Forall (fun nb => match snd nb with VsStruct fs => NoDup (map fst fs) | _ => True end) vs ->
  from_value (TyEnum vs) v = Ok d <->
  exists n c b, vdef_of v = DVariant n c /\ d = XEnum n b /\
    exists body, In (n, body) vs /\
    match body, b with
    | VsUnit, VsUnit => values c = []
    | VsTuple ts, VsTuple xs => length (values c) = length ts /\ Forall2 (fun tv x => from_value (fst tv) (snd tv) = Ok x) (combine ts (values c)) xs
    | VsStruct fs, VsStruct ds => match c with Named l => fields_by_name fs l ds | Unnamed l => fields_by_position fs l ds end
    | VsNewtype t, VsNewtype x => de t (SrcComposite c) = Ok x
    | _, _ => False
    end.
Proof.
  intros ND HW. unfold from_value at 1. cbn [de deserialize].
  destruct v as [[c|n c|b|p] ctx]; cbn [vdef_of vdef_de variant_de bits_de composite_de bind].
  - split; [intro H; destruct c; discriminate|intros (? & ? & ? & H & _); discriminate].
  - cbn [visit_enum]. rewrite !find_field_map.
    destruct (find_field n vs) as [body|] eqn:Eb; cbn [option_map].
    2:{ split; [discriminate|]. intros (n' & c' & b & HE & -> & body & HI & _). injection HE as <- <-. apply find_field_None in Eb. exfalso. apply Eb. apply (in_map fst) in HI. exact HI. }
    assert (HU : forall body', In (n, body') vs -> body' = body).
    { intros body' HI. apply (find_field_nodup vs n body' ND) in HI. congruence. }
    apply find_field_In in Eb. rewrite Forall_forall in HW. specialize (HW _ Eb). cbn [snd] in HW.
    assert (HX : forall r : result data derr, (forall d', r = Ok d' <-> exists b, d' = XEnum n b /\
       match body, b with
       | VsUnit, VsUnit => values c = []
       | VsTuple ts, VsTuple xs => length (values c) = length ts /\ Forall2 (fun tv x => from_value (fst tv) (snd tv) = Ok x) (combine ts (values c)) xs
       | VsStruct fs, VsStruct ds => match c with Named l => fields_by_name fs l ds | Unnamed l => fields_by_position fs l ds end
       | VsNewtype t, VsNewtype x => de t (SrcComposite c) = Ok x
       | _, _ => False
       end) -> r = Ok d <-> exists n' c' b, DVariant n c = DVariant n' c' /\ d = XEnum n' b /\ exists body, In (n', body) vs /\
       match body, b with
       | VsUnit, VsUnit => values c' = []
       | VsTuple ts, VsTuple xs => length (values c') = length ts /\ Forall2 (fun tv x => from_value (fst tv) (snd tv) = Ok x) (combine ts (values c')) xs
       | VsStruct fs, VsStruct ds => match c' with Named l => fields_by_name fs l ds | Unnamed l => fields_by_position fs l ds end
       | VsNewtype t, VsNewtype x => de t (SrcComposite c') = Ok x
       | _, _ => False
       end).
    { intros r Hr. rewrite Hr. split.
      - intros (b & -> & H). exists n, c, b. split; [reflexivity|]. split; [reflexivity|]. exists body. auto.
      - intros (n' & c' & b & HE & -> & body' & HI & H). injection HE as <- <-. apply HU in HI. subst body'. exists b. auto. }
    apply HX. clear HX d. intro d. destruct body as [|t|ts|fs]; cbn [vshape_map].
    + cbn [deserialize composite_de]. assert (HC : cis_empty c = true <-> values c = []) by (destruct c as [[|[? ?] ?]|[|? ?]]; cbn; split; intro; congruence).
      destruct (cis_empty c) eqn:Ec; cbn [bind visit_unit rmap].
      * split; [intro H; injection H as <-; exists VsUnit; split; [reflexivity|apply HC; reflexivity]|]. intros ([] & -> & H); try contradiction. reflexivity.
      * split; [discriminate|]. intros ([] & -> & H); try contradiction. apply HC in H. discriminate.
    + rewrite rmap_ok. split; [intros (x & H & ->); exists (VsNewtype x); auto|]. intros ([] & -> & H); try contradiction. eauto.
    + rewrite map_length. cbn [composite_de]. replace (clen c) with (length (values c)) by (destruct c; cbn [values clen]; [apply map_length|reflexivity]).
      destruct (Nat.eqb_spec (length (values c)) (length ts)) as [E|E]; cbn [bind].
      * rewrite rmap_ok. split; [intros (xs & H & ->); exists (VsTuple xs); split; [reflexivity|]; split; [exact E|]; apply visit_elems_exact in H; assumption|].
        intros ([] & -> & H); try contradiction. destruct H as [_ H]. exists l. split; [apply visit_elems_exact; assumption|reflexivity].
      * split; [discriminate|]. intros ([] & -> & H); try contradiction. destruct H as [H _]. contradiction.
    + rewrite rmap_ok. destruct c as [l|l].
      * split; [intros (ds & H & ->); exists (VsStruct ds); split; [reflexivity|]; apply fields_given_spec in H; assumption|].
        intros ([] & -> & H); try contradiction. exists l0. split; [apply fields_given_spec; assumption|reflexivity].
      * split; [intros (ds & H & ->); exists (VsStruct ds); split; [reflexivity|]; apply visit_struct_unnamed in H; assumption|].
        intros ([] & -> & H); try contradiction. exists l0. split; [apply visit_struct_unnamed; assumption|reflexivity].
  - split; [discriminate|intros (? & ? & ? & H & _); discriminate].
  - split; [intro H; destruct p; discriminate|intros (? & ? & ? & H & _); discriminate].
Qed.

(** ** Scalars *)
Lemma de_bool_spec {T} (v : value T) d : from_value TyBool v = Ok d <-> exists b, vdef_of v = DPrim (PBool b) /\ d = XBool b.
Proof.
  unfold from_value. cbn [de]. unfold de_bool. cbn [deserialize]. destruct v as [[c|n c|b|p] ctx]; cbn [vdef_of vdef_de]; [| | |destruct p];
    (split; [intro H; try (destruct c); try discriminate H; injection H as <-; eexists; split; reflexivity|intros (x & HE & ->); try discriminate HE; injection HE as ->; reflexivity]).
Qed.

Lemma de_char_spec {T} (v : value T) d : from_value TyChar v = Ok d <->
  exists c, (vdef_of v = DPrim (PChar c) \/ vdef_of v = DPrim (PString [c])) /\ d = XChar c.
Proof.
  unfold from_value. cbn [de deserialize]. destruct v as [[c|n c|b|p] ctx]; cbn [vdef_of vdef_de].
  - split; [intro H; destruct c; discriminate|intros (x & [HE|HE] & _); discriminate].
  - split; [discriminate|intros (x & [HE|HE] & _); discriminate].
  - split; [discriminate|intros (x & [HE|HE] & _); discriminate].
  - destruct p as [b|c|s|n|z|b|b]; cbn [prim_de prim_any bind visit_char rmap]; try (split; [discriminate|intros (x & [HE|HE] & _); discriminate]).
    + split; [intro H; injection H as <-; eauto|intros (x & [HE|HE] & ->); [injection HE as ->; reflexivity|discriminate]].
    + destruct s as [|c [|c' s]]; (split; [intro H; try discriminate H; injection H as <-; eauto|intros (x & [HE|HE] & ->); try discriminate HE; injection HE as ->; reflexivity]).
Qed.

Lemma de_string_spec {T} (v : value T) d : from_value TyString v = Ok d <->
  exists s, (vdef_of v = DPrim (PString s) \/ (exists c, vdef_of v = DPrim (PChar c) /\ s = [c]) \/
             (exists b, (vdef_of v = DPrim (PU256 b) \/ vdef_of v = DPrim (PI256 b)) /\ utf8_decode b = Some s)) /\ d = XString s.
Proof.
  unfold from_value. cbn [de]. unfold de_string. cbn [deserialize]. destruct v as [[c|n c|b|p] ctx]; cbn [vdef_of vdef_de].
  - split; [intro H; destruct c; discriminate|intros (x & [HE|[(? & HE & _)|(? & [HE|HE] & _)]] & _); discriminate].
  - split; [discriminate|intros (x & [HE|[(? & HE & _)|(? & [HE|HE] & _)]] & _); discriminate].
  - split; [discriminate|intros (x & [HE|[(? & HE & _)|(? & [HE|HE] & _)]] & _); discriminate].
  - destruct p as [b|c|s|n|z|b|b]; cbn [prim_de prim_any bind visit_string rmap]; try (split; [discriminate|intros (x & [HE|[(? & HE & _)|(? & [HE|HE] & _)]] & _); discriminate]).
    + split; [intro H; injection H as <-; eauto 12|intros (x & [HE|[(? & HE & ->)|(? & [HE|HE] & _)]] & ->); try discriminate; injection HE as ->; reflexivity].
    + split; [intro H; injection H as <-; eauto 12|intros (x & [HE|[(? & HE & ->)|(? & [HE|HE] & _)]] & ->); try discriminate; injection HE as ->; reflexivity].
    + split; [destruct (utf8_decode b) eqn:E; [intro H; injection H as <-; eauto 12|discriminate]|].
      intros (x & [HE|[(? & HE & ->)|(? & [HE|HE] & HU)]] & ->); try discriminate; injection HE as ->. rewrite HU. reflexivity.
    + split; [destruct (utf8_decode b) eqn:E; [intro H; injection H as <-; eauto 12|discriminate]|].
      intros (x & [HE|[(? & HE & ->)|(? & [HE|HE] & HU)]] & ->); try discriminate; injection HE as ->. rewrite HU. reflexivity.
Qed.

Lemma de_unit_spec {T} (v : value T) d : from_value TyUnit v = Ok d <-> has_fields v /\ fields_of v = [] /\ d = XUnit.
Proof.
  unfold from_value. cbn [de deserialize]. destruct v as [[c|n c|b|p] ctx]; cbn [vdef_of vdef_de variant_de composite_de has_fields].
  - destruct c as [[|[k x] l]|[|x l]]; cbn; (split; [intro H; try discriminate H; injection H as <-; auto|intros (_ & HE & ->); try discriminate HE; reflexivity]).
  - destruct c as [[|[k x] l]|[|x l]]; cbn; (split; [intro H; try discriminate H; injection H as <-; auto|intros (_ & HE & ->); try discriminate HE; reflexivity]).
  - split; [discriminate|intros ([] & _)].
  - split; [intro H; destruct p; discriminate|intros ([] & _)].
Qed.

(** ** Newtypes *)
Lemma newtype_written t x v : to_value (TyNewtype t) (XNewtype x) = Ok v -> exists w, to_value t x = Ok w /\ v = unnamed_composite [w].
Proof. unfold to_value. cbn [ser to_value_sd]. destruct (to_value_sd (ser t x)) as [w|]; cbn [bind]; [intro H; injection H as <-; eauto|discriminate]. Qed.

Lemma newtype_read {T} t (c : composite (value T)) ctx :
  from_value (TyNewtype t) (Val (DComposite c) ctx) = rmap XNewtype (de t (SrcComposite c)).
Proof.
  unfold from_value. cbn [de deserialize vdef_of vdef_de composite_de bind visit_elems seq_take].
  destruct (de t (SrcComposite c)); reflexivity.
Qed.

Fixpoint bytes_core (t : ty) : bool := match t with TyBytes => true | TyNewtype t' => bytes_core t' | _ => false end.

Lemma bytes_core_composite t x w : bytes_core t = true -> to_value t x = Ok w -> forall n, vdef_of w <> DPrim (PU128 n).
Proof.
  unfold to_value. destruct t; try discriminate; intros _ H n HE.
  - destruct x; cbn [ser to_value_sd] in H; try discriminate. injection H as <-. discriminate.
  - destruct x; cbn [ser to_value_sd] in H; try discriminate. destruct (to_value_sd (ser t x)); cbn [bind] in H; [|discriminate]. injection H as <-. discriminate.
Qed.

Lemma newtype_arg_fails {T} t : never_in_newtype t -> forall w : value T, (bytes_core t = true -> forall n, vdef_of w <> DPrim (PU128 n)) ->
  exists e, de t (SrcComposite (Unnamed [w])) = Err e.
Proof.
  induction t as [|sg w0| | | | |t IH|t IH|ts IH|t IH|t IH| |t IH|ts IH|fs IH|vs IH| | | |] using ty_ind'; cbn [never_in_newtype bytes_core]; intros HN w Hw; try contradiction.
  - exists DType. reflexivity.
  - exists DType. reflexivity.
  - exists DType. reflexivity.
  - exists DType. reflexivity.
  - exists DCustom. reflexivity.
  - exists DCustom. specialize (Hw eq_refl). cbn [de deserialize composite_de composite_bytes values mapM]. unfold composite_bytes. cbn [values mapM]. destruct (vdef_of w) as [c|nm c|b|[b|c|s|n|z|b|b]] eqn:E; try reflexivity. destruct (Hw n). reflexivity.
  - exists DType. reflexivity.
  - cbn [de deserialize composite_de clen length]. destruct (Nat.eqb_spec 1 (length ts)) as [E|E]; [congruence|]. exists DCustom. reflexivity.
  - exists DType. reflexivity.
  - exists DType. reflexivity.
  - exists DCustom. reflexivity.
  - destruct (IH HN w Hw) as (e & He). cbn [de deserialize composite_de bind visit_elems seq_take]. rewrite He. exists e. reflexivity.
  - cbn [de deserialize composite_de clen length]. destruct (Nat.eqb_spec 1 (length ts)) as [E|E]; [congruence|]. exists DCustom. reflexivity.
  - exists DType. reflexivity.
  - exists DType. reflexivity.
  - cbn [de]. unfold de_prim. cbn [deserialize composite_de composite_any bind visit_prim map mapM].
    destruct (de_u8 (SrcValue w)) as [z|e]; cbn [bind]; [exists DLength; reflexivity|exists e; reflexivity].
Qed.

(** ** Values read as values *)
Lemma reread_ok {T} (v : value T) : no_reserved_key v -> from_value TyValue v = Ok (XValue (reread v)).
Proof.
  intro H. unfold from_value. cbn [de]. assert (HE : de_value (SrcValue v) = Ok (reread v)); [|rewrite HE; reflexivity].
  revert H. induction v as [l ctx IH|l ctx IH|n l ctx IH|n l ctx IH|b ctx|p ctx] using value_ind4; intro H.
  all: assert (HC : forall c, In c (fields_of _) -> no_reserved_key c) by (intros c Hc path k w l' ctx'; apply In_nth_error in Hc as [i Hi]; specialize (H (i :: path) k w l' ctx'); cbn [node_at] in H; rewrite Hi in H; exact H).
  - rewrite de_value_named.
    2:{ destruct l as [|[k x] l]; [exact I|]. apply str_eqb_neq. intro HK. subst k. exact (H [] _ _ _ _ eq_refl eq_refl). }
    unfold de_fields. rewrite (mapM_total _ (fun kv => (fst kv, reread (snd kv)))); [reflexivity|]. intros [k x] Hx. cbn [fst snd].
    rewrite Forall_forall in IH. specialize (IH (k, x) Hx). cbn [snd] in IH. rewrite IH; [reflexivity|]. apply HC. cbn [fields_of]. apply (in_map snd) in Hx. exact Hx.
  - rewrite de_value_unnamed. rewrite (mapM_total _ reread); [reflexivity|]. intros x Hx. rewrite Forall_forall in IH. apply IH; [exact Hx|]. apply HC. exact Hx.
  - rewrite de_value_variant. cbn [de_comp]. unfold de_fields. rewrite (mapM_total _ (fun kv => (fst kv, reread (snd kv)))); [reflexivity|]. intros [k x] Hx. cbn [fst snd].
    rewrite Forall_forall in IH. specialize (IH (k, x) Hx). cbn [snd] in IH. rewrite IH; [reflexivity|]. apply HC. cbn [fields_of]. apply (in_map snd) in Hx. exact Hx.
  - rewrite de_value_variant. cbn [de_comp]. rewrite (mapM_total _ reread); [reflexivity|]. intros x Hx. rewrite Forall_forall in IH. apply IH; [exact Hx|]. apply HC. exact Hx.
  - apply de_value_bits.
  - rewrite de_value_prim. destruct p; reflexivity.
Qed.

Lemma reserved_read {T} (w : value T) rest ctx :
  from_value TyValue (Val (DComposite (Named ((reserved_key, w) :: rest))) ctx) =
  rmap (fun d => XValue (bit_sequence (bools_in d))) (from_value (TyVec TyBool) w).
Proof.
  unfold from_value. cbn [de]. rewrite de_value_unfold. cbn [any_of vdef_of vdef_any composite_any visit_valuedef map fst snd visit_map_or_bits].
  change reserved_key with bitvec_key. rewrite str_eqb_refl.
  assert (HV : bind (deserialize (SrcValue w) HSeq) (visit_vec (fun s => rmap XBool (de_bool s))) = rmap (map XBool) (bind (deserialize (SrcValue w) HSeq) (visit_vec de_bool))).
  { destruct (deserialize (SrcValue w) HSeq) as [e|]; [|reflexivity]. cbn [bind]. destruct e; try reflexivity. cbn [visit_vec]. clear. induction l as [|s l IH]; [reflexivity|].
    cbn [mapM]. destruct (de_bool s); [|reflexivity]. cbn [rmap bind]. rewrite IH. destruct (mapM de_bool l); reflexivity. }
  rewrite HV. destruct (bind (deserialize (SrcValue w) HSeq) (visit_vec de_bool)) as [b|e]; [|reflexivity]. cbn [rmap bools_in]. rewrite map_map.
  cbn. rewrite map_id. reflexivity.
Qed.

(** ** Failing to serialize *)
Lemma to_value_spec d : (exists v, to_value_sd d = Ok v) <-> serializable d.
Proof.
  assert (HM : forall A B (f : A -> result B serr) l, (exists r, mapM f l = Ok r) <-> Forall (fun x => exists y, f x = Ok y) l).
  { intros A B f l. split.
    - intros (r & Hr). apply mapM_ok in Hr. induction Hr; constructor; eauto.
    - induction 1 as [|x l (y & Hy) _ (r & Hr)]; [exists []; reflexivity|]. exists (y :: r). cbn [mapM]. rewrite Hy. cbn [bind]. rewrite Hr. reflexivity. }
  revert d. fix IH 1. intro d. destruct d as [b|sg w z| |c|s|b| |x| | |n|x|n x|l|l|l|n l|l|l|n l]; cbn [to_value_sd serializable].
  - split; eauto.
  - split; [auto|]. intros _. destruct sg; eauto.
  - split; [intros (v & H); discriminate|intros []].
  - split; eauto.
  - split; eauto.
  - split; eauto.
  - split; eauto.
  - rewrite <- IH. split; [intros (v & H); destruct (to_value_sd x); [eauto|discriminate]|intros (v & ->); cbn [bind]; eauto].
  - split; eauto.
  - split; eauto.
  - split; eauto.
  - rewrite <- IH. split; [intros (v & H); destruct (to_value_sd x); [eauto|discriminate]|intros (v & ->); cbn [bind]; eauto].
  - rewrite <- IH. split; [intros (v & H); destruct (to_value_sd x); [eauto|discriminate]|intros (v & ->); cbn [bind]; eauto].
  - assert (HF : Forall (fun x => exists y, to_value_sd x = Ok y) l <-> fold_right (fun x P => serializable x /\ P) True l).
    { induction l as [|x l IHl]; cbn [fold_right]; [split; [auto|constructor]|]. rewrite <- IH, <- IHl. split; [intro H; inversion H; auto|intros []; constructor; assumption]. }
    rewrite <- HF, <- HM. split; [intros (v & H); destruct (mapM to_value_sd l); [eauto|discriminate]|intros (v & ->); cbn [rmap]; eauto].
  - assert (HF : Forall (fun x => exists y, to_value_sd x = Ok y) l <-> fold_right (fun x P => serializable x /\ P) True l).
    { induction l as [|x l IHl]; cbn [fold_right]; [split; [auto|constructor]|]. rewrite <- IH, <- IHl. split; [intro H; inversion H; auto|intros []; constructor; assumption]. }
    rewrite <- HF, <- HM. split; [intros (v & H); destruct (mapM to_value_sd l); [eauto|discriminate]|intros (v & ->); cbn [rmap]; eauto].
  - assert (HF : Forall (fun x => exists y, to_value_sd x = Ok y) l <-> fold_right (fun x P => serializable x /\ P) True l).
    { induction l as [|x l IHl]; cbn [fold_right]; [split; [auto|constructor]|]. rewrite <- IH, <- IHl. split; [intro H; inversion H; auto|intros []; constructor; assumption]. }
    rewrite <- HF, <- HM. split; [intros (v & H); destruct (mapM to_value_sd l); [eauto|discriminate]|intros (v & ->); cbn [rmap]; eauto].
  - assert (HF : Forall (fun x => exists y, to_value_sd x = Ok y) l <-> fold_right (fun x P => serializable x /\ P) True l).
    { induction l as [|x l IHl]; cbn [fold_right]; [split; [auto|constructor]|]. rewrite <- IH, <- IHl. split; [intro H; inversion H; auto|intros []; constructor; assumption]. }
    rewrite <- HF, <- HM. split; [intros (v & H); destruct (mapM to_value_sd l); [eauto|discriminate]|intros (v & ->); cbn [rmap]; eauto].
  - assert (HK : forall k, (exists s, bind (to_value_sd k) key_of = Ok s) <-> stringlike k).
    { intro k. destruct k as [b|sg w z| |c|s|b| |x| | |n|x|n x|kl|kl|kl|n kl|kl|kl|n kl]; cbn [stringlike]; try (split; [intros _; exact I|intros _; cbn; eauto]; fail); (split; [intros (s0 & H); exfalso; cbn [to_value_sd] in H; try discriminate H|intros []]).
      all: repeat match type of H with
           | context [if ?b then _ else _] => destruct b; try discriminate H
           | context [to_value_sd ?y] => destruct (to_value_sd y); discriminate H
           | context [mapM ?f ?y] => destruct (mapM f y); discriminate H
           end. }
    assert (HF : Forall (fun kv : sd * sd => exists y, (let (k, x) := kv in bind (to_value_sd k) (fun kk => bind (key_of kk) (fun s => bind (to_value_sd x) (fun v => Ok (s, v))))) = Ok y) l
                 <-> fold_right (fun (kv : sd * sd) P => (let (k, x) := kv in stringlike k /\ serializable x) /\ P) True l).
    { induction l as [|[k x] l IHl]; cbn [fold_right]; [split; [auto|constructor]|].
      assert (HE : (exists y, bind (to_value_sd k) (fun kk => bind (key_of kk) (fun s => bind (to_value_sd x) (fun v => Ok (s, v)))) = Ok y) <-> stringlike k /\ serializable x).
      { rewrite <- IH, <- HK. split.
        - intros (y & H). destruct (to_value_sd k) as [kk|]; [|discriminate]. cbn [bind] in *. destruct (key_of kk) as [s|]; [|discriminate]. cbn [bind] in H. destruct (to_value_sd x); [|discriminate]. eauto.
        - intros ((s & H) & (v & ->)). destruct (to_value_sd k) as [kk|]; [|discriminate]. cbn [bind] in *. rewrite H. cbn [bind]. eauto. }
      rewrite <- HE, <- IHl. split; [intro H; inversion H; auto|intros []; constructor; assumption]. }
    rewrite <- HF, <- HM. split; [intros (v & H); destruct (mapM _ l); [eauto|discriminate]|intros (v & ->); cbn [rmap]; eauto].
  - assert (HF : Forall (fun nx : str * sd => exists y, (let (n, x) := nx in bind (to_value_sd x) (fun v => Ok (n, v))) = Ok y) l <-> fold_right (fun (nx : str * sd) P => (let (_, x) := nx in serializable x) /\ P) True l).
    { induction l as [|[n x] l IHl]; cbn [fold_right]; [split; [auto|constructor]|].
      assert (HE : (exists y, bind (to_value_sd x) (fun v => Ok (n, v)) = Ok y) <-> serializable x).
      { rewrite <- IH. split; [intros (v & H); destruct (to_value_sd x); [eauto|discriminate]|intros (v & ->); cbn [bind]; eauto]. }
      rewrite <- HE, <- IHl. split; [intro H; inversion H; auto|intros []; constructor; assumption]. }
    rewrite <- HF, <- HM. split; [intros (v & H); destruct (mapM _ l); [eauto|discriminate]|intros (v & ->); cbn [rmap]; eauto].
  - assert (HF : Forall (fun nx : str * sd => exists y, (let (n, x) := nx in bind (to_value_sd x) (fun v => Ok (n, v))) = Ok y) l <-> fold_right (fun (nx : str * sd) P => (let (_, x) := nx in serializable x) /\ P) True l).
    { induction l as [|[m x] l IHl]; cbn [fold_right]; [split; [auto|constructor]|].
      assert (HE : (exists y, bind (to_value_sd x) (fun v => Ok (m, v)) = Ok y) <-> serializable x).
      { rewrite <- IH. split; [intros (v & H); destruct (to_value_sd x); [eauto|discriminate]|intros (v & ->); cbn [bind]; eauto]. }
      rewrite <- HE, <- IHl. split; [intro H; inversion H; auto|intros []; constructor; assumption]. }
    rewrite <- HF, <- HM. split; [intros (v & H); destruct (mapM _ l); [eauto|discriminate]|intros (v & ->); cbn [rmap]; eauto].
Qed.
