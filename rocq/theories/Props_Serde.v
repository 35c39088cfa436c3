(** * Props_Serde: C39-C46, C50-C57 *)
From Verif Require Import Base Value Spec_Value ValueFacts Scale Serde SerdeFacts Spec_Serde SerdeRt SerdeUni SerdeMore SerdeCtx SerdeTargets SerdeTargets2 SerdeDoc.
From Coq Require Import Permutation.

(** ** C39: a [Value] read out of a [Value] *)

(** Exactly the values without 256-bit integers and without the reserved first key come back as they are. *)
Theorem C39_value_from_value : forall (T : Type) (v : value T),
  from_value TyValue v = Ok (XValue (remove_context v)) <-> survives v.
Proof.
  intros T v. rewrite <- value_to_value_iff. unfold same_value, from_value. cbn [de]. split.
  - intro H. apply rmap_ok in H as (w & Hw & HE). injection HE as <-. exact Hw.
  - intros ->. reflexivity.
Qed.
Print Assumptions C39_value_from_value.

(** 256-bit integers come back as unnamed composites of their 32 bytes; nothing else changes. *)
Theorem C39_256_bit_integers : forall (T : Type) (v : value T), no_reserved_key v -> from_value TyValue v = Ok (XValue (reread v)).
Proof. intros T v. apply reread_ok. Qed.
Print Assumptions C39_256_bit_integers.

(** A [Composite] read out of a composite, a [Variant] out of a variant. *)
Theorem C39_composite_and_variant : forall (T : Type) n (c : composite (value T)) ctx,
  (from_value TyComposite (Val (DComposite c) ctx) = Ok (XComposite (composite_map remove_context c)) <-> Forall survives (values c)) /\
  (from_value TyVariant (Val (DVariant n c) ctx) = Ok (XVariant n (composite_map remove_context c)) <-> Forall survives (values c)).
Proof.
  intros T n c ctx.
  assert (HS : de_comp c = Ok (composite_map remove_context c) <-> Forall survives (values c)).
  { rewrite de_comp_same. split; intro H; rewrite Forall_forall in *; intros x Hx; apply value_to_value_iff; auto. }
  unfold from_value. cbn [de]. split; rewrite <- HS.
  - unfold de_composite, de_composite_with. rewrite deserialize_any_ok. cbn [any_of vdef_of vdef_any bind]. rewrite visit_composite_any. split.
    + intro H. apply rmap_ok in H as (w & Hw & HE). injection HE as <-. exact Hw.
    + intros ->. reflexivity.
  - unfold de_variant. rewrite deserialize_any_ok. cbn [any_of vdef_of vdef_any bind visit_variant]. change (de_composite_with de_value (SrcComposite c)) with (de_composite (SrcComposite c)). rewrite de_composite_eq. split.
    + intro H. apply rmap_ok in H as (w & Hw & HE). apply rmap_ok in Hw as (c' & Hc & ->). injection HE as <-. exact Hc.
    + intros ->. reflexivity.
Qed.
Print Assumptions C39_composite_and_variant.

(** A [Primitive] out of a primitive: the same, except that a signed 256-bit integer comes back unsigned. *)
Theorem C39_primitive : forall (T : Type) p (ctx : T), prim_wf p = true ->
  from_value TyPrim (Val (DPrim p) ctx) = Ok (XPrim (match p with PI256 b => PU256 b | _ => p end)).
Proof.
  intros T p ctx HW. unfold from_value. cbn [de]. unfold de_prim. rewrite deserialize_any_ok. cbn [any_of vdef_of vdef_any bind].
  destruct p as [b|c|s|n|z|b|b]; try reflexivity; cbn [prim_any visit_prim].
  - rewrite N2Z.id. reflexivity.
  - cbn [prim_wf] in HW. apply andb_true_iff in HW as [HW _]. rewrite HW. reflexivity.
  - cbn [prim_wf] in HW. apply andb_true_iff in HW as [HW _]. rewrite HW. reflexivity.
Qed.
Print Assumptions C39_primitive.

Example C39_non_vacuous :
  let v := Val (DComposite (Named [(s2l "a", Val (DVariant (s2l "V") (Unnamed [Val (DBits [true; false]) 2%N; Val (DPrim (PI128 (-5))) 3%N])) 1%N);
                                   (reserved_key, Val (DPrim (PChar 97)) 4%N)])) 0%N in
  survives v /\ from_value TyValue v = Ok (XValue (remove_context v)).
Proof.
  split; [|reflexivity].
  apply value_to_value_iff. reflexivity.
Qed.

(** ** C40: [to_value] then [from_value] *)
Theorem C40_round_trip : forall (t : ty) (d : data), ty_wf t -> of_type t d ->
  exists v, to_value t d = Ok v /\ from_value t v = Ok d.
Proof. intros t d WF HD. exact (universe_rt t WF d HD). Qed.
Print Assumptions C40_round_trip.

(** Therefore [to_value] is injective on each such type. *)
Theorem C40_injective : forall (t : ty) (d d' : data) v, ty_wf t -> of_type t d -> of_type t d' ->
  to_value t d = Ok v -> to_value t d' = Ok v -> d = d'.
Proof.
  intros t d d' v WF H H' E E'. destruct (C40_round_trip t d WF H) as (w & E1 & E2). destruct (C40_round_trip t d' WF H') as (w' & E1' & E2'). congruence.
Qed.
Print Assumptions C40_injective.

Definition demo_ty : ty :=
  TyStruct [(s2l "id", TyInt false 32);
            (s2l "tags", TyMap (TyOption (TyInt true 64)));
            (s2l "shape", TyEnum [(s2l "Point", VsUnit); (s2l "Rect", VsTuple [TyInt false 8; TyString]); (s2l "Poly", VsStruct [(s2l "pts", TyVec (TyTuple [TyBool; TyChar]))])]);
            (s2l "raw", TyBytes)].
Definition demo_data : data :=
  XStruct [(s2l "id", XInt 4000000000); (s2l "tags", XMap [(s2l "a", XNone); (s2l "b", XSome (XInt (-7)))]);
           (s2l "shape", XEnum (s2l "Poly") (VsStruct [(s2l "pts", XVec [XTuple [XBool true; XChar 120]])])); (s2l "raw", XBytes [0; 255]%N)].
Example C40_non_vacuous : ty_wf demo_ty /\ of_type demo_ty demo_data /\
  match to_value demo_ty demo_data with Ok v => from_value demo_ty v = Ok demo_data | Err _ => False end.
Proof.
  split; [|split].
  - cbn [ty_wf demo_ty fold_right]. repeat split; cbn; auto 10; try (repeat constructor; cbn; intuition discriminate).
  - cbn [of_type demo_ty demo_data]. eexists. split; [reflexivity|]. split; [reflexivity|]. cbn [map all2 snd].
    split; [eexists; split; reflexivity|]. split.
    { eexists. split; [reflexivity|]. split; [cbn; auto|]. constructor; [left; reflexivity|]. constructor; [|constructor]. right. eexists. split; [reflexivity|]. eexists. split; reflexivity. }
    split.
    { eexists _, _. split; [reflexivity|]. cbn. eexists. split; [reflexivity|]. split; [reflexivity|]. split; [|exact I]. eexists. split; [reflexivity|].
      constructor; [|constructor]. eexists. split; [reflexivity|]. cbn. split; [eexists; reflexivity|]. split; [eexists; reflexivity|exact I]. }
    split; [|exact I]. eexists. split; [reflexivity|]. repeat constructor.
  - vm_compute. reflexivity.
Qed.

(** ** C41: newtypes do not round trip *)

(** A newtype struct around any of these types is written, but never read back. *)
Theorem C41_newtype_structs_refuted : forall t x v, never_in_newtype t -> to_value (TyNewtype t) (XNewtype x) = Ok v ->
  exists e, from_value (TyNewtype t) v = Err e.
Proof.
  intros t x v HN HV. destruct (newtype_written t x v HV) as (w & HW & ->). unfold unnamed_composite. rewrite newtype_read.
  destruct (newtype_arg_fails t HN w) as (e & ->).
  - intro HB. eapply bytes_core_composite; eassumption.
  - exists e. reflexivity.
Qed.
Print Assumptions C41_newtype_structs_refuted.

(** The same for a newtype variant of an enum. *)
Theorem C41_newtype_variants_refuted : forall t n vs x v, In (n, VsNewtype t) vs -> NoDup (map fst vs) ->
  Forall (fun nb => match snd nb with VsStruct fs => NoDup (map fst fs) | _ => True end) vs -> never_in_newtype t ->
  to_value (TyEnum vs) (XEnum n (VsNewtype x)) = Ok v -> exists e, from_value (TyEnum vs) v = Err e.
Proof.
  intros t n vs x v HI ND HW HN HV.
  assert (HX : exists w, to_value t x = Ok w /\ v = unnamed_variant n [w]).
  { revert HV. unfold to_value. cbn [ser]. rewrite find_field_map, (find_field_nodup vs n _ ND HI). cbn [option_map ser_variant_body to_value_sd].
    destruct (to_value_sd (ser t x)); cbn [bind]; [intro H; injection H as <-; eauto|discriminate]. }
  destruct HX as (w & HT & ->). destruct (newtype_arg_fails t HN w) as (e & He); [intro HB; eapply bytes_core_composite; eassumption|].
  destruct (from_value (TyEnum vs) (unnamed_variant n [w])) as [d|e'] eqn:E; [|eauto]. exfalso.
  apply de_enum_spec in E as (n' & c & b & HE & -> & body & HB & HM); [|exact ND|exact HW]. injection HE as <- <-.
  apply (find_field_nodup vs n _ ND) in HI. apply (find_field_nodup vs n _ ND) in HB. rewrite HI in HB. injection HB as <-. destruct b; try contradiction. congruence.
Qed.
Print Assumptions C41_newtype_variants_refuted.

(** Where no error is raised the data can be silently different: [Foo(vec![])] with [struct Foo(Vec<Vec<u8>>)]. *)
Theorem C41_silent_change_refuted :
  let t := TyNewtype (TyVec (TyVec (TyInt false 8))) in
  to_value t (XNewtype (XVec [])) = Ok (unnamed_composite [unnamed_composite []]) /\
  from_value t (unnamed_composite [unnamed_composite []]) = Ok (XNewtype (XVec [XVec []])).
Proof. split; reflexivity. Qed.
Print Assumptions C41_silent_change_refuted.

Example C41_non_vacuous : never_in_newtype (TyInt false 8) /\
  to_value (TyNewtype (TyInt false 8)) (XNewtype (XInt 5)) = Ok (unnamed_composite [vu128 5]) /\
  from_value (TyNewtype (TyInt false 8)) (unnamed_composite [vu128 5]) = Err DType /\
  to_value (TyEnum [(s2l "A", VsNewtype TyBool)]) (XEnum (s2l "A") (VsNewtype (XBool true))) = Ok (unnamed_variant (s2l "A") [vbool true]) /\
  from_value (TyEnum [(s2l "A", VsNewtype TyBool)]) (unnamed_variant (s2l "A") [vbool true]) = Err DType.
Proof. repeat split. Qed.

(** ** C42: serializing a [Value] *)

(** [to_value] of a value always succeeds, with the flattened form. *)
Theorem C42_to_value_of_value : forall (v : value unit), to_value TyValue (XValue v) = Ok (flatten v).
Proof. intro v. exact (to_value_of_value v). Qed.
Print Assumptions C42_to_value_of_value.

(** It is the value itself when that has no variants, bit sequences, 256-bit integers or reserved keys; doing it twice is
    the same as doing it once. *)
Theorem C42_fixed_point : forall (v : value unit), plain v -> no_bit_sequences v -> to_value TyValue (XValue v) = Ok v.
Proof. intros v HP HB. rewrite C42_to_value_of_value, flatten_children_plain by assumption. f_equal. apply remove_context_id. Qed.
Print Assumptions C42_fixed_point.

Theorem C42_idempotent : forall (v w : value unit), to_value TyValue (XValue v) = Ok w -> to_value TyValue (XValue w) = Ok w.
Proof. intros v w H. rewrite C42_to_value_of_value in *. injection H as <-. rewrite flatten_idem. reflexivity. Qed.
Print Assumptions C42_idempotent.

(** Integers are handed to the serializer in the narrowest integer type that holds them. *)
Theorem C42_narrowest_integer : forall p, prim_wf p = true ->
  match p with
  | PU128 n => exists w, ser_prim p = SInt false w (Z.of_N n) /\ In w [8; 16; 32; 64; 128]%N /\ int_range false w (Z.of_N n) /\
                 forall w', In w' [8; 16; 32; 64; 128]%N -> (w' < w)%N -> ~ int_range false w' (Z.of_N n)
  | PI128 z => exists w, ser_prim p = SInt true w z /\ In w [8; 16; 32; 64; 128]%N /\ int_range true w z /\
                 forall w', In w' [8; 16; 32; 64; 128]%N -> (w' < w)%N -> ~ int_range true w' z
  | _ => True
  end.
Proof.
  intros p HW. destruct p as [b|c|s|n|z|b|b]; try exact I; apply first_width; unfold int_range; cbn [prim_wf] in HW.
  - split; [lia|]. unfold prim_wf in HW. apply N.ltb_lt in HW. change (2 ^ Z.of_N 128)%Z with (Z.of_N (2 ^ 128)). lia.
  - lia.
Qed.
Print Assumptions C42_narrowest_integer.

Example C42_non_vacuous :
  let v := named_composite [(s2l "a", unnamed_composite [vu128 300; vi128 (-1)])] in
  plain v /\ no_bit_sequences v /\ to_value TyValue (XValue v) = Ok v /\
  to_value TyValue (XValue (unnamed_variant (s2l "V") [vu128 1])) = Ok (named_composite [(s2l "name", vstring (s2l "V")); (s2l "values", unnamed_composite [vu128 1])]).
Proof.
  intro v. assert (HS : survives v) by (apply value_to_value_iff; reflexivity).
  assert (HV : no_variants v /\ no_bit_sequences v).
  { split; intros path; destruct path as [|[|[|]] [|[|[|[|]]] [|]]]; try discriminate. all: cbn; try discriminate. all: destruct n as [|?]; cbn; discriminate. }
  split; [split; [exact HS|apply HV]|]. split; [apply HV|]. split; reflexivity.
Qed.

(** ** C43: integers *)
Theorem C43_integers_exact : forall (T : Type) sg w (v : value T) d, In w [8; 16; 32; 64; 128]%N ->
  (from_value (TyInt sg w) v = Ok d <-> exists z, number_in v = Some z /\ int_range sg w z /\ d = XInt z).
Proof. intros T sg w v d. apply de_int_spec. Qed.
Print Assumptions C43_integers_exact.

Example C43_non_vacuous :
  from_value (TyInt false 8) (vi128 255) = Ok (XInt 255) /\ from_value (TyInt false 8) (vu128 256) = Err DType /\
  from_value (TyInt false 128) (vi128 (-1)) = Err DRange /\ from_value (TyInt true 8) (vu128 128) = Err DType /\ from_value (TyInt true 8) (vi128 (-128)) = Ok (XInt (-128)).
Proof. repeat split. Qed.

(** ** C44: tuples *)

(** A tuple (or array, or tuple struct) is read from the fields of a composite or variant, names notwithstanding, and only
    if there are exactly as many. *)
Theorem C44_tuples : forall (T : Type) ts (v : value T) d,
  from_value (TyTuple ts) v = Ok d <->
  has_fields v /\ length (fields_of v) = length ts /\
  exists xs, d = XTuple xs /\ Forall2 (fun tv x => from_value (fst tv) (snd tv) = Ok x) (combine ts (fields_of v)) xs.
Proof. intros T ts v d. apply de_tuple_spec. Qed.
Print Assumptions C44_tuples.

Theorem C44_tuple_structs : forall (T : Type) ts (v : value T) d,
  from_value (TyTupleStruct ts) v = Ok d <->
  has_fields v /\ length (fields_of v) = length ts /\
  exists xs, d = XTupleStruct xs /\ Forall2 (fun tv x => from_value (fst tv) (snd tv) = Ok x) (combine ts (fields_of v)) xs.
Proof. intros T ts v d. apply de_tuple_struct_spec. Qed.
Print Assumptions C44_tuple_structs.

Example C44_non_vacuous :
  from_value (TyTuple [TyBool; TyInt false 8]) (named_variant (s2l "V") [(s2l "x", vbool true); (s2l "y", vu128 3)]) = Ok (XTuple [XBool true; XInt 3]) /\
  from_value (TyTuple [TyBool]) (unnamed_composite [vbool true; vu128 3]) = Err DCustom.
Proof. split; reflexivity. Qed.

(** ** C45: the reserved key *)

(** Whatever follows, such a composite is read as a bit sequence, or not at all. *)
Theorem C45_reserved_key_refuted : forall (T : Type) (w : value T) rest ctx,
  from_value TyValue (Val (DComposite (Named ((reserved_key, w) :: rest))) ctx) =
  rmap (fun d => XValue (bit_sequence (bools_in d))) (from_value (TyVec TyBool) w).
Proof. intros T w rest ctx. apply reserved_read. Qed.
Print Assumptions C45_reserved_key_refuted.

(** So a field is dropped without an error. *)
Theorem C45_field_dropped_refuted :
  from_value TyValue (named_composite [(s2l "__bitvec__values__", unnamed_composite [vbool true]); (s2l "balance", vu128 7)]) = Ok (XValue (bit_sequence [true])) /\
  from_value TyValue (named_composite [(s2l "balance", vu128 7); (s2l "__bitvec__values__", unnamed_composite [vbool true])]) =
    Ok (XValue (named_composite [(s2l "balance", vu128 7); (s2l "__bitvec__values__", unnamed_composite [vbool true])])).
Proof. split; reflexivity. Qed.
Print Assumptions C45_field_dropped_refuted.

(** ** C46: options *)
Theorem C46_options : forall (T : Type) t (v : value T) d,
  from_value (TyOption t) v = Ok d <->
  (vdef_of v = DVariant (s2l "None") (Unnamed []) /\ d = XNone) \/
  (exists w x, vdef_of v = DVariant (s2l "Some") (Unnamed [w]) /\ from_value t w = Ok x /\ d = XSome x).
Proof. intros T t v d. apply de_option_spec. Qed.
Print Assumptions C46_options.

Theorem C46_options_written : forall t x,
  to_value (TyOption t) XNone = Ok (unnamed_variant (s2l "None") []) /\
  (forall w, to_value t x = Ok w -> to_value (TyOption t) (XSome x) = Ok (unnamed_variant (s2l "Some") [w])).
Proof. intros t x. split; [reflexivity|]. unfold to_value. intros w H. cbn [ser to_value_sd]. rewrite H. reflexivity. Qed.
Print Assumptions C46_options_written.

(** A value that is not an [Option] is not read as [Some] of it. *)
Theorem C46_no_implicit_some_refuted : from_value (TyOption (TyInt false 8)) (vu128 5) = Err DType /\ from_value (TyInt false 8) (vu128 5) = Ok (XInt 5).
Proof. split; reflexivity. Qed.
Print Assumptions C46_no_implicit_some_refuted.

Example C46_non_vacuous : from_value (TyOption (TyInt false 8)) (unnamed_variant (s2l "Some") [vu128 5]) = Ok (XSome (XInt 5)) /\
  from_value (TyOption (TyOption TyBool)) (unnamed_variant (s2l "Some") [unnamed_variant (s2l "None") []]) = Ok (XSome XNone).
Proof. split; reflexivity. Qed.

(** ** C50: what cannot be written *)
Theorem C50_serializable : forall d, (exists v, to_value_sd d = Ok v) <-> serializable d.
Proof. apply to_value_spec. Qed.
Print Assumptions C50_serializable.

Example C50_non_vacuous :
  serializable (SStruct [(s2l "m", SMap [(SChar 97, SNewtypeStruct (SSome SUnit))])]) /\
  to_value_sd (SSeq [SInt false 8 1; SFloat]) = Err SECannotSerializeFloats /\
  to_value_sd (SMap [(SInt false 8 1, SUnit)]) = Err SEMapKeyMustBeStringlike.
Proof. split; [cbn; auto|]. split; reflexivity. Qed.

(** ** C51: structs *)
Theorem C51_structs_by_name : forall (T : Type) (fs : list (str * ty)) (l : list (str * value T)) ctx d, NoDup (map fst fs) ->
  from_value (TyStruct fs) (Val (DComposite (Named l)) ctx) = Ok d <-> exists ds, d = XStruct ds /\ fields_by_name fs l ds.
Proof. intros T fs l ctx d. apply de_struct_named. Qed.
Print Assumptions C51_structs_by_name.

(** The order of the fields in the value plays no role. *)
Theorem C51_order_independent : forall (T : Type) (fs : list (str * ty)) (l l' : list (str * value T)) ctx ctx' d, NoDup (map fst fs) -> Permutation l l' ->
  from_value (TyStruct fs) (Val (DComposite (Named l)) ctx) = Ok d -> from_value (TyStruct fs) (Val (DComposite (Named l')) ctx') = Ok d.
Proof.
  intros T fs l l' ctx ctx' d ND HP H. apply de_struct_named in H as (ds & -> & H1 & H2 & H3); [|exact ND]. apply de_struct_named; [exact ND|]. exists ds. split; [reflexivity|].
  pose proof (Permutation_map fst HP) as HF.
  assert (HFilter : forall (f : str -> bool) a b, Permutation a b -> Permutation (filter f a) (filter f b)).
  { intros f a b HH. induction HH as [|x a b _ IH|x y a|a b c _ IH1 _ IH2]; cbn [filter]; [constructor| | |eapply Permutation_trans; eassumption].
    - destruct (f x); [constructor|]; exact IH.
    - destruct (f x), (f y); try apply Permutation_refl. constructor. }
  split; [|split].
  - eapply Permutation_NoDup; [apply HFilter; exact HF|exact H1].
  - clear -H2 HP HF. induction H2 as [|[n t] [n' x] fs ds (HA & HB) _ IH]; constructor; [|exact IH]. cbn [fst snd] in *. split; [exact HA|].
    destruct HB as [(v & HI & Hv)|(HI & Hv)]; [left; exists v; split; [eapply Permutation_in; eassumption|exact Hv]|right]. split; [|exact Hv].
    intro HX. apply HI. eapply Permutation_in; [apply Permutation_sym; exact HF|exact HX].
  - intros k v t HI. apply H3. eapply Permutation_in; [apply Permutation_sym; exact HP|exact HI].
Qed.
Print Assumptions C51_order_independent.

(** Entries with other names are ignored, whatever they hold. *)
Theorem C51_unknown_fields_ignored : forall (T : Type) (fs : list (str * ty)) (l1 l2 : list (str * value T)) k (v : value T) ctx ctx' d, NoDup (map fst fs) -> ~ In k (map fst fs) ->
  from_value (TyStruct fs) (Val (DComposite (Named (l1 ++ (k, v) :: l2))) ctx) = Ok d <-> from_value (TyStruct fs) (Val (DComposite (Named (l1 ++ l2))) ctx') = Ok d.
Proof.
  intros T fs l1 l2 k v ctx ctx' d ND HK. rewrite !de_struct_named by exact ND.
  assert (HH : forall ds, fields_by_name fs (l1 ++ (k, v) :: l2) ds <-> fields_by_name fs (l1 ++ l2) ds).
  { intro ds. unfold fields_by_name.
    assert (E1 : filter (fun k => existsb (str_eqb k) (map fst fs)) (map fst (l1 ++ (k, v) :: l2)) = filter (fun k => existsb (str_eqb k) (map fst fs)) (map fst (l1 ++ l2))).
    { rewrite !map_app, !filter_app. cbn [map fst filter]. replace (existsb (str_eqb k) (map fst fs)) with false; [reflexivity|]. symmetry.
      destruct (existsb (str_eqb k) (map fst fs)) eqn:E; [|reflexivity]. apply existsb_exists in E as (n & Hn & HE). apply str_eqb_eq in HE. subst n. contradiction. }
    rewrite E1.
    assert (EI : forall n w, n <> k -> (In (n, w) (l1 ++ (k, v) :: l2) <-> In (n, w) (l1 ++ l2))).
    { intros n w Hn. rewrite !in_app_iff. cbn [In]. split; [intros [H|[H|H]]; auto; congruence|tauto]. }
    assert (EM : forall n, n <> k -> (In n (map fst (l1 ++ (k, v) :: l2)) <-> In n (map fst (l1 ++ l2)))).
    { intros n Hn. rewrite !map_app. cbn [map fst]. rewrite !in_app_iff. cbn [In]. split; [intros [H|[H|H]]; auto; congruence|tauto]. }
    assert (HFn : forall n t, In (n, t) fs -> n <> k) by (intros n t HI ->; apply HK; apply (in_map fst) in HI; exact HI).
    assert (HF2 : forall gs es, (forall n t, In (n, t) gs -> n <> k) ->
      (Forall2 (fun ft nd => fst nd = fst ft /\ ((exists v0, In (fst ft, v0) (l1 ++ (k, v) :: l2) /\ from_value (snd ft) v0 = Ok (snd nd)) \/ (~ In (fst ft) (map fst (l1 ++ (k, v) :: l2)) /\ (exists u, snd ft = TyOption u) /\ snd nd = XNone))) gs es <->
       Forall2 (fun ft nd => fst nd = fst ft /\ ((exists v0, In (fst ft, v0) (l1 ++ l2) /\ from_value (snd ft) v0 = Ok (snd nd)) \/ (~ In (fst ft) (map fst (l1 ++ l2)) /\ (exists u, snd ft = TyOption u) /\ snd nd = XNone))) gs es)).
    { induction gs as [|[n t] gs IH]; intros es Hg; [split; intro H; inversion H; constructor|].
      assert (Hn : n <> k) by (apply (Hg n t); left; reflexivity).
      assert (IH' : forall es, _) by (intro es'; apply (IH es'); intros a b HI; apply (Hg a b); right; exact HI).
      split; intro H; inversion H as [|? e ? es' H1 H2]; subst; (constructor; [|apply IH'; exact H2]); cbn [fst snd] in *; destruct H1 as [HA HB]; (split; [exact HA|]);
        (destruct HB as [(w & HI & Hw)|(HI & Hw)]; [left; exists w; split; [apply EI; assumption|exact Hw]|right; split; [rewrite EM in * by exact Hn; exact HI|exact Hw]]). }
    rewrite (HF2 fs ds HFn).
    split; intros (H1 & H2 & H3); (split; [exact H1|]); (split; [exact H2|]); intros n w t HI Ht; (apply (H3 n w t); [apply EI; [exact (HFn n t Ht)|exact HI]|exact Ht]). }
  split; intros (ds & -> & H); exists ds; (split; [reflexivity|]); apply HH; exact H.
Qed.
Print Assumptions C51_unknown_fields_ignored.

(** From an unnamed composite the fields are read by position, and surplus values are silently ignored. *)
Theorem C51_structs_by_position : forall (T : Type) (fs : list (str * ty)) (l : list (value T)) ctx d,
  from_value (TyStruct fs) (Val (DComposite (Unnamed l)) ctx) = Ok d <-> exists ds, d = XStruct ds /\ fields_by_position fs l ds.
Proof. intros T fs l ctx d. apply de_struct_unnamed. Qed.
Print Assumptions C51_structs_by_position.

Example C51_non_vacuous :
  let t := TyStruct [(s2l "a", TyInt false 8); (s2l "b", TyOption TyBool)] in
  from_value t (named_composite [(s2l "z", bit_sequence [true]); (s2l "a", vu128 1)]) = Ok (XStruct [(s2l "a", XInt 1); (s2l "b", XNone)]) /\
  from_value t (named_composite [(s2l "a", vu128 1); (s2l "a", vu128 1)]) = Err DDuplicate /\
  from_value t (unnamed_composite [vu128 1; unnamed_variant (s2l "None") []; vu128 3]) = Ok (XStruct [(s2l "a", XInt 1); (s2l "b", XNone)]).
Proof. repeat split. Qed.

(** ** C52: through another self-describing format *)

(** A plain value is written to a document and read back unchanged. *)
Theorem C52_plain_values : forall (T : Type) (v : value T), plain v ->
  exists d, to_doc (ser_value v) = Some d /\ de_value (SrcDoc (T := unit) d) = Ok (remove_context v).
Proof. intros T v. apply value_through_doc. Qed.
Print Assumptions C52_plain_values.

(** In general: variants come back as maps, 256-bit integers as sequences; bit sequences survive. *)
Theorem C52_any_value : forall (T : Type) (v : value T), no_reserved_key v -> no_reserved_key_in_variants v ->
  exists d, to_doc (ser_value v) = Some d /\ de_value (SrcDoc (T := unit) d) = Ok (doc_read v).
Proof. intros T v. apply doc_any. Qed.
Print Assumptions C52_any_value.

(** Asking for a [Variant] restores the variant at the top. *)
Theorem C52_variants : forall (T : Type) n (c : composite (value T)), Forall (fun v => no_reserved_key v /\ no_reserved_key_in_variants v) (values c) ->
  exists d, to_doc (ser_variant n c) = Some d /\ de_variant (SrcDoc (T := unit) d) = Ok (n, composite_map doc_read c).
Proof. intros T n c. apply doc_variant. Qed.
Print Assumptions C52_variants.

(** So a value with a variant is not what it was. *)
Theorem C52_variants_in_values_refuted :
  to_doc (ser_value (unnamed_variant (s2l "V") [])) = Some (FMap [(s2l "name", FStr (s2l "V")); (s2l "values", FSeq [])]) /\
  de_value (SrcDoc (T := unit) (FMap [(s2l "name", FStr (s2l "V")); (s2l "values", FSeq [])])) =
    Ok (named_composite [(s2l "name", vstring (s2l "V")); (s2l "values", unnamed_composite [])]).
Proof. split; reflexivity. Qed.
Print Assumptions C52_variants_in_values_refuted.

Example C52_non_vacuous : plain (unnamed_composite [bit_sequence [true; false]; vu128 (2 ^ 100)]) /\
  to_doc (ser_value (unnamed_composite [bit_sequence [true]; vu128 300])) = Some (FSeq [FMap [(s2l "__bitvec__values__", FSeq [FBool true])]; FInt false 16 300]).
Proof.
  split; [|reflexivity]. split; [apply value_to_value_iff; reflexivity|]. intros path. destruct path as [|[|[|]] [|]]; try discriminate. all: cbn; try discriminate. all: destruct n; cbn; discriminate.
Qed.

(** ** C53: contexts *)
Theorem C53_contexts_ignored : forall (T U : Type) (g : T -> U) (t : ty) (v : value T), from_value t (map_ctx g v) = from_value t v.
Proof. intros T U g t v. exact (de_map g t (SrcValue v)). Qed.
Print Assumptions C53_contexts_ignored.

Theorem C53_same_shape_same_result : forall (T U : Type) (t : ty) (v : value T) (w : value U), remove_context v = remove_context w -> from_value t v = from_value t w.
Proof.
  intros T U t v w H. rewrite <- (C53_contexts_ignored T unit (fun _ => tt) t v), <- (C53_contexts_ignored U unit (fun _ => tt) t w).
  unfold remove_context in H. rewrite H. reflexivity.
Qed.
Print Assumptions C53_same_shape_same_result.

(** Serializing does not look at them either. *)
Theorem C53_serialize_contexts_ignored : forall (T U : Type) (g : T -> U) (v : value T), ser_value (map_ctx g v) = ser_value v.
Proof.
  intros T U g v. induction v as [d ctx IH] using value_ind'. rewrite map_ctx_unfold. rewrite Forall_forall in IH.
  assert (HC : forall c : composite (value T), (forall x, In x (values c) -> ser_value (map_ctx g x) = ser_value x) ->
    ser_composite_with ser_value (composite_map (map_ctx g) c) = ser_composite_with ser_value c).
  { intros [l|l] H; cbn [composite_map ser_composite_with values] in *; f_equal; rewrite map_map; apply map_ext_in.
    - intros [k x] Hx. cbn [fst snd]. rewrite H; [reflexivity|]. apply (in_map snd) in Hx. exact Hx.
    - intros x Hx. apply H. exact Hx. }
  destruct d as [c|n c|b|p]; cbn [vdef_map ser_value].
  - apply HC. exact IH.
  - unfold ser_variant_with. rewrite HC by exact IH. reflexivity.
  - reflexivity.
  - reflexivity.
Qed.
Print Assumptions C53_serialize_contexts_ignored.

Example C53_non_vacuous : from_value (TyVec TyBool) (Val (DComposite (Unnamed [Val (DPrim (PBool true)) 7%N])) 8%N) = Ok (XVec [XBool true]).
Proof. reflexivity. Qed.

(** ** C54: sequences *)

(** A sequence is read from the fields of any composite or variant; names play no role. *)
Theorem C54_sequences : forall (T : Type) t (v : value T) d,
  from_value (TyVec t) v = Ok d <-> has_fields v /\ exists xs, d = XVec xs /\ Forall2 (fun w x => from_value t w = Ok x) (fields_of v) xs.
Proof. intros T t v d. apply de_vec_spec. Qed.
Print Assumptions C54_sequences.

Example C54_non_vacuous : from_value (TyVec (TyInt false 8)) (named_variant (s2l "V") [(s2l "a", vu128 1); (s2l "b", vu128 2)]) = Ok (XVec [XInt 1; XInt 2]) /\
  from_value (TyVec (TyInt false 8)) (vstring (s2l "ab")) = Err DType.
Proof. split; reflexivity. Qed.

(** ** C55: values that cannot be read although their type looks right *)

(** A bit sequence is not read as a sequence of bools, nor as bytes, tuple, map or enum. *)
Theorem C55_bit_sequences_refuted : forall (T : Type) b (ctx : T) t ts vs,
  from_value (TyVec t) (Val (DBits b) ctx) = Err DCustom /\ from_value (TyTuple ts) (Val (DBits b) ctx) = Err DCustom /\
  from_value (TyMap t) (Val (DBits b) ctx) = Err DCustom /\ from_value (TyEnum vs) (Val (DBits b) ctx) = Err DCustom /\
  from_value TyBytes (Val (DBits b) ctx) = Err DCustom.
Proof. intros. repeat split. Qed.
Print Assumptions C55_bit_sequences_refuted.

(** A struct is never read from a variant, though the same variant's fields are read as a tuple or sequence. *)
Theorem C55_struct_from_variant_refuted : forall (T : Type) fs n (c : composite (value T)) ctx,
  from_value (TyStruct fs) (Val (DVariant n c) ctx) = Err DType.
Proof. intros. reflexivity. Qed.
Print Assumptions C55_struct_from_variant_refuted.

(** A newtype around [Option] is not read from [Some]/[None]. *)
Theorem C55_newtype_option_refuted : forall (T : Type) t n (c : composite (value T)) ctx,
  from_value (TyNewtype (TyOption t)) (Val (DVariant n c) ctx) = Err DType.
Proof. intros. reflexivity. Qed.
Print Assumptions C55_newtype_option_refuted.

Example C55_non_vacuous : from_value (TyTuple [TyBool]) (named_variant (s2l "V") [(s2l "a", vbool true)]) = Ok (XTuple [XBool true]) /\
  from_value (TyOption TyBool) (unnamed_variant (s2l "Some") [vbool true]) = Ok (XSome (XBool true)).
Proof. split; reflexivity. Qed.

(** ** C56: scalars *)
Theorem C56_bool : forall (T : Type) (v : value T) d, from_value TyBool v = Ok d <-> exists b, vdef_of v = DPrim (PBool b) /\ d = XBool b.
Proof. intros T v d. apply de_bool_spec. Qed.
Print Assumptions C56_bool.

Theorem C56_char : forall (T : Type) (v : value T) d, from_value TyChar v = Ok d <->
  exists c, (vdef_of v = DPrim (PChar c) \/ vdef_of v = DPrim (PString [c])) /\ d = XChar c.
Proof. intros T v d. apply de_char_spec. Qed.
Print Assumptions C56_char.

(** A string is read from strings and chars, and from 256-bit integers whose bytes happen to be UTF-8. *)
Theorem C56_string : forall (T : Type) (v : value T) d, from_value TyString v = Ok d <->
  exists s, (vdef_of v = DPrim (PString s) \/ (exists c, vdef_of v = DPrim (PChar c) /\ s = [c]) \/
             (exists b, (vdef_of v = DPrim (PU256 b) \/ vdef_of v = DPrim (PI256 b)) /\ utf8_decode b = Some s)) /\ d = XString s.
Proof. intros T v d. apply de_string_spec. Qed.
Print Assumptions C56_string.

(** The unit type is read from anything without fields. *)
Theorem C56_unit : forall (T : Type) (v : value T) d, from_value TyUnit v = Ok d <-> has_fields v /\ fields_of v = [] /\ d = XUnit.
Proof. intros T v d. apply de_unit_spec. Qed.
Print Assumptions C56_unit.

Example C56_non_vacuous : from_value TyString (Val (DPrim (PU256 (repeat 65%N 32))) tt) = Ok (XString (repeat 65%N 32)) /\
  from_value TyUnit (unnamed_variant (s2l "V") []) = Ok XUnit /\ from_value TyChar (vstring (s2l "ab")) = Err DRange.
Proof. repeat split. Qed.

(** ** C57: enums *)
Theorem C57_enums : forall (T : Type) vs (v : value T) d, NoDup (map fst vs) ->
  Forall (fun nb => match snd nb with VsStruct fs => NoDup (map fst fs) | _ => True end) vs ->
  from_value (TyEnum vs) v = Ok d <->
  exists n c b, vdef_of v = DVariant n c /\ d = XEnum n b /\
    exists body, In (n, body) vs /\
    match body, b with
    | VsUnit, VsUnit => values c = []
    | VsTuple ts, VsTuple xs => length (values c) = length ts /\ Forall2 (fun tv x => from_value (fst tv) (snd tv) = Ok x) (combine ts (values c)) xs
    | VsStruct fs, VsStruct ds => match c with Named l => fields_by_name fs l ds | Unnamed l => fields_by_position fs l ds end
    | VsNewtype t, VsNewtype x => de t (SrcComposite c) = Ok x
    | _, _ => False
    end.
Proof. intros T vs v d. apply de_enum_spec. Qed.
Print Assumptions C57_enums.

Example C57_non_vacuous :
  let t := TyEnum [(s2l "A", VsUnit); (s2l "B", VsStruct [(s2l "x", TyBool)])] in
  from_value t (named_variant (s2l "B") [(s2l "x", vbool true)]) = Ok (XEnum (s2l "B") (VsStruct [(s2l "x", XBool true)])) /\
  from_value t (unnamed_variant (s2l "A") [vbool true]) = Err DCustom /\ from_value t (unnamed_variant (s2l "C") []) = Err DUnknown.
Proof. repeat split. Qed.
