(** * Props_Parts: C69 (the parts of a value as deserializers and as targets), C70 (histories of serializer calls) *)
From Verif Require Import Base Value Spec_Value Serde SerdeFacts SerdeUni Spec_Serde Spec_Parts SerdeParts SerdeTargets SerdeCalls Spec_Calls SerdeCallsFacts.

(** ** C69: [Composite], [Variant] and [Primitive] *)

(** A composite or a primitive is read exactly like the value around it, by every type. *)
Theorem C69_composite_source : forall (T : Type) (t : ty) (c : composite (value T)) (ctx : T),
  de t (SrcComposite c) = from_value t (Val (DComposite c) ctx).
Proof. intros. apply alike_de, alike_composite. Qed.
Print Assumptions C69_composite_source.

Theorem C69_primitive_source : forall (T : Type) (t : ty) (p : prim) (ctx : T),
  de t (SrcPrim (T := T) p) = from_value t (Val (DPrim p) ctx).
Proof. intros. apply alike_de, alike_prim. Qed.
Print Assumptions C69_primitive_source.

(** So is a variant, except by options and structs. *)
Theorem C69_variant_source : forall (T : Type) (t : ty) n (c : composite (value T)) (ctx : T),
  (forall u, t <> TyOption u) -> (forall fs, t <> TyStruct fs) ->
  de t (SrcVariant n c) = from_value t (Val (DVariant n c) ctx).
Proof. intros. now apply bare_variant_de. Qed.
Print Assumptions C69_variant_source.

(** A bare [Variant] is never an option, not even [Some(x)] and [None], which are options inside a [Value]. *)
Theorem C69_variant_option_refuted : forall (T : Type) (t : ty) n (c : composite (value T)),
  de (TyOption t) (SrcVariant n c) = Err DType /\
  from_value (TyOption t) (Val (DVariant (s2l "None") (Unnamed [])) tt) = Ok XNone.
Proof. intros. split; reflexivity. Qed.
Print Assumptions C69_variant_option_refuted.

(** A struct reads a bare [Variant] as its fields; inside a [Value] the same variant is an error. *)
Theorem C69_variant_struct_refuted : forall (T : Type) fs n (c : composite (value T)) (ctx : T),
  de (TyStruct fs) (SrcVariant n c) = from_value (TyStruct fs) (Val (DComposite c) ctx) /\
  from_value (TyStruct fs) (Val (DVariant n c) ctx) = Err DType.
Proof. intros. split; reflexivity. Qed.
Print Assumptions C69_variant_struct_refuted.

(** What a [Composite] is read from, and what it is then. *)
Theorem C69_composite_target : forall (T : Type) (v : value T) d,
  from_value TyComposite v = Ok d <-> exists c', d = XComposite c' /\
    match v with
    | Val (DComposite c) _ => reads_fields c c'
    | Val (DBits b) _ => c' = Named [(reserved_key, unnamed_composite (map vbool b))]
    | Val (DPrim (PU256 b)) _ | Val (DPrim (PI256 b)) _ => c' = Unnamed (map vu128 b)
    | _ => False
    end.
Proof.
  intros T v d. split.
  - intro H. unfold from_value in H. cbn [de] in H. apply rmap_ok in H as (c' & H & ->). exists c'. split; [reflexivity|]. rewrite composite_target in H.
    destruct v as [[c|n c|b|p] ctx].
    + now apply de_comp_reads.
    + discriminate H.
    + now injection H.
    + destruct p; try discriminate H; now injection H.
  - intros (c' & -> & H). apply from_value_composite. rewrite composite_target. destruct v as [[c|n c|b|p] ctx].
    + now apply de_comp_reads.
    + destruct H.
    + now rewrite H.
    + destruct p; try destruct H; reflexivity.
Qed.
Print Assumptions C69_composite_target.

(** What a [Variant] is read from: variants, and maps with a name and values. *)
Theorem C69_variant_target : forall (T : Type) (v : value T) d,
  from_value TyVariant v = Ok d <-> exists n' c', d = XVariant n' c' /\
    match v with
    | Val (DVariant n c) _ => n' = n /\ reads_fields c c'
    | Val (DComposite (Named l)) _ => variant_map l n' c'
    | _ => False
    end.
Proof.
  intros T v d.
  assert (E : from_value TyVariant v = Ok d <-> exists n' c', d = XVariant n' c' /\ visit_variant de_value (any_of (SrcValue v)) = Ok (n', c')).
  { unfold from_value. cbn [de]. unfold de_variant. rewrite deserialize_any_ok. cbn [bind]. rewrite rmap_ok. split.
    - intros ([n' c'] & H & ->). exists n', c'. now split.
    - intros (n' & c' & -> & H). exists (n', c'). now split. }
  rewrite E. clear E.
  assert (I : forall n' c', visit_variant de_value (any_of (SrcValue v)) = Ok (n', c') <->
    match v with
    | Val (DVariant n c) _ => n' = n /\ reads_fields c c'
    | Val (DComposite (Named l)) _ => variant_map l n' c'
    | _ => False
    end).
  { intros n' c'. destruct v as [[[l|l]|n c|b|p] ctx]; cbn [any_of vdef_of vdef_any].
    - apply variant_map_ok.
    - split; [discriminate|intros []].
    - cbn [visit_variant]. change (de_composite_with de_value (SrcComposite c)) with (de_composite (SrcComposite c)). rewrite de_composite_eq, rmap_ok, <- de_comp_reads. split.
      + intros (x & H & EQ). injection EQ as -> ->. now split.
      + intros [-> H]. exists c'. now split.
    - split; [|intros []]. cbn [bits_map visit_variant variant_fields]. vm_compute. discriminate.
    - split; [|intros []]. destruct p; discriminate. }
  split; intros (n' & c' & -> & H); exists n', c'; (split; [reflexivity|]); now apply I.
Qed.
Print Assumptions C69_variant_target.

(** What a [Primitive] is read from: primitives, and unnamed composites of 32 numbers that fit a byte. *)
Theorem C69_primitive_target : forall (T : Type) (v : value T) d,
  (forall p ctx, v = Val (DPrim p) ctx -> prim_wf p = true) ->
  (from_value TyPrim v = Ok d <->
    match v with
    | Val (DPrim (PI256 b)) _ => d = XPrim (PU256 b)
    | Val (DPrim p) _ => d = XPrim p
    | Val (DComposite (Unnamed l)) _ =>
        length l = 32%nat /\ exists b, d = XPrim (PU256 b) /\ Forall2 (fun w x => number_in w = Some (Z.of_N x) /\ (x < 256)%N) l b
    | _ => False
    end).
Proof.
  intros T v d W. unfold from_value. cbn [de]. unfold de_prim. rewrite deserialize_any_ok. cbn [bind any_of].
  destruct v as [[[l|l]|n c|b|p] ctx]; cbn [vdef_of vdef_any composite_any].
  - cbn [visit_prim rmap]. split; [discriminate|intros []].
  - cbn [visit_prim]. rewrite mapM_map. rewrite rmap_ok. split.
    + intros (p & H & ->). apply bind_ok in H as (zs & H & E). destruct (Nat.eqb (length zs) 32) eqn:EL; [|discriminate E]. injection E as <-.
      pose proof (mapM_length _ _ _ H) as LL. apply Nat.eqb_eq in EL. split; [lia|]. exists (map Z.to_N zs). split; [reflexivity|].
      apply Forall2_mapM in H. clear EL LL W. induction H as [|w z l zs Hz H IH]; cbn [map]; constructor; [|exact IH].
      assert (Hd : from_value (TyInt false 8) w = Ok (XInt z)).
      { unfold from_value. cbn [de]. unfold de_u8 in Hz. rewrite Hz. reflexivity. }
      apply de_int_spec in Hd; [|now left]. destruct Hd as (z' & Hn & Hr & E). injection E as <-. unfold int_range in Hr. rewrite Z2N.id by lia. split; [exact Hn|].
      change (2 ^ Z.of_N 8)%Z with 256%Z in Hr. lia.
    + intros (L & b & -> & F). exists (PU256 b). split; [|reflexivity]. apply bind_ok. exists (map Z.of_N b). split.
      * apply Forall2_mapM. clear L W. induction F as [|w x l b [Hn Hx] F IH]; cbn [map]; constructor; [|exact IH].
        assert (Hd : from_value (TyInt false 8) w = Ok (XInt (Z.of_N x))).
        { apply de_int_spec; [now left|]. exists (Z.of_N x). split; [exact Hn|]. split; [|reflexivity]. unfold int_range. change (2 ^ Z.of_N 8)%Z with 256%Z. lia. }
        unfold from_value in Hd. cbn [de] in Hd. apply rmap_ok in Hd as (z & Hz & E). injection E as <-. exact Hz.
      * rewrite map_length. replace (length b) with 32%nat by (rewrite <- L; clear -F; induction F; cbn [length]; congruence). cbn [Nat.eqb]. rewrite map_map. rewrite (map_ext _ (fun x => x)), map_id; [reflexivity|]. intro a. apply N2Z.id.
  - cbn [visit_prim rmap]. split; [discriminate|intros []].
  - cbn [bits_map visit_prim rmap]. split; [discriminate|intros []].
  - specialize (W p ctx eq_refl). destruct p as [b|c|s|n|z|b|b]; cbn [prim_any visit_prim].
    + cbn [rmap]. split; [intro H; now injection H|now intros ->].
    + cbn [rmap]. split; [intro H; now injection H|now intros ->].
    + cbn [rmap]. split; [intro H; now injection H|now intros ->].
    + rewrite N2Z.id. cbn [rmap]. split; [intro H; now injection H|now intros ->].
    + cbn [rmap]. split; [intro H; now injection H|now intros ->].
    + cbn [prim_wf] in W. apply andb_true_iff in W as [W _]. rewrite W. cbn [rmap]. split; [intro H; now injection H|now intros ->].
    + cbn [prim_wf] in W. apply andb_true_iff in W as [W _]. rewrite W. cbn [rmap]. split; [intro H; now injection H|now intros ->].
Qed.
Print Assumptions C69_primitive_target.

Example C69_non_vacuous :
  let c := Unnamed [vu128 1; vstring (s2l "x")] in
  de (TyTuple [TyInt false 8; TyString]) (SrcComposite c) = Ok (XTuple [XInt 1; XString (s2l "x")]) /\
  de (TyTuple [TyInt false 8; TyString]) (SrcVariant (s2l "V") c) = Ok (XTuple [XInt 1; XString (s2l "x")]) /\
  de (TyOption TyBool) (SrcVariant (s2l "Some") (Unnamed [vbool true])) = Err DType /\
  from_value (TyOption TyBool) (unnamed_variant (s2l "Some") [vbool true]) = Ok (XSome (XBool true)) /\
  de (TyStruct [(s2l "a", TyBool)]) (SrcVariant (s2l "V") (Named [(s2l "a", vbool true)])) = Ok (XStruct [(s2l "a", XBool true)]) /\
  de (TyInt false 8) (SrcPrim (T := unit) (PU128 7)) = Ok (XInt 7) /\
  from_value TyComposite (bit_sequence [true]) = Ok (XComposite (Named [(reserved_key, unnamed_composite [vbool true])])) /\
  from_value TyVariant (named_composite [(s2l "values", Val (DComposite c) tt); (s2l "name", vstring (s2l "A")); (s2l "name", vchar 66)]) = Ok (XVariant [66%N] c) /\
  from_value TyVariant (named_composite [(s2l "values", Val (DComposite c) tt)]) = Err DCustom /\
  from_value TyPrim (unnamed_composite (repeat (vi128 255) 32)) = Ok (XPrim (PU256 (repeat 255%N 32))) /\
  from_value TyPrim (unnamed_composite (repeat (vi128 255) 31)) = Err DLength.
Proof. repeat split. Qed.

(** ** C70: any history of serializer calls *)

(** Whoever drives the map and struct serializers, in whatever order, and whatever errors are ignored on the way: either
    the calls answer as if each stood alone and the finished value has exactly the fields that were added, or some value
    was offered without a key and the call panicked. *)
Theorem C70_named_histories : forall (variant : option str) (calls : list call),
  (exists answers st fields, run ns_call (ns_new variant) calls = Some (answers, st) /\ Forall2 answer calls answers /\ fields_added calls fields /\
     ns_end st = match variant with Some n => named_variant n fields | None => named_composite fields end) \/
  (run ns_call (ns_new variant) calls = None /\
     exists before x after, calls = before ++ CValue x :: after /\ forall s, ~ pending before s).
Proof.
  intros variant calls. destruct (run_good variant calls) as [(rs & st & R & A & (HV & HF & _) & _)|(R & O)]; [left|right; now split].
  exists rs, st, (ns_values st). split; [exact R|]. split; [exact A|]. split; [exact HF|]. unfold ns_end. now rewrite HV.
Qed.
Print Assumptions C70_named_histories.

(** The panic, exactly: some value is offered with no key pending. *)
Theorem C70_panics : forall (variant : option str) (calls : list call),
  run ns_call (ns_new variant) calls = None <->
  exists before x after, calls = before ++ CValue x :: after /\ forall s, ~ pending before s.
Proof.
  intros variant calls. destruct (run_good variant calls) as [(rs & st & R & _ & _ & NO)|(R & O)]; rewrite R.
  - split; [discriminate|]. intro H. destruct NO. exact H.
  - now split.
Qed.
Print Assumptions C70_panics.

(** A failing value uses its key up: offering another value for the same key panics. *)
Theorem C70_retry_refuted : forall (variant : option str) (before : list call) k x y,
  run ns_call (ns_new variant) (before ++ [CKey k; CValue x; CValue y]) = None.
Proof.
  intros. apply C70_panics. exists (before ++ [CKey k; CValue x]), y, []. split; [now rewrite <- app_assoc|].
  intros s. change (before ++ [CKey k; CValue x]) with (before ++ [CKey k] ++ [CValue x]). rewrite app_assoc. apply pending_value.
Qed.
Print Assumptions C70_retry_refuted.

(** Callers that alternate keys and values and stop at the first error never meet the panic and get [to_value]. *)
Theorem C70_maps : forall (l : list (sd * sd)),
  option_map (rmap ns_end) (run_strict ns_call (ns_new None) (concat (map (fun kx => [CKey (fst kx); CValue (snd kx)]) l))) = Some (to_value_sd (SMap l)).
Proof.
  intro l. change (concat _) with (map_calls l). rewrite strict_map. cbn [option_map to_value_sd]. destruct (mapM _ l); reflexivity.
Qed.
Print Assumptions C70_maps.

Theorem C70_structs : forall (variant : option str) (l : list (str * sd)),
  option_map (rmap ns_end) (run_strict ns_call (ns_new variant) (map (fun kx => CField (fst kx) (snd kx)) l)) =
  Some (to_value_sd (match variant with Some n => SStructVariant n l | None => SStruct l end)).
Proof.
  intros variant l. change (map _ l) with (struct_calls l). rewrite strict_struct. destruct variant as [n|]; cbn [option_map to_value_sd]; destruct (mapM _ l); reflexivity.
Qed.
Print Assumptions C70_structs.

(** The sequence serializer never panics; elements that fail are left out, the others stay in order. *)
Theorem C70_sequences : forall (variant : option str) (l : list sd),
  (exists st, run us_element (us_new variant) l = Some (map (fun x => rmap (fun _ => tt) (to_value_sd x)) l, st) /\
    us_end st = (match variant with Some n => unnamed_variant n | None => unnamed_composite end)
      (concat (map (fun x => match to_value_sd x with Ok v => [v] | Err _ => [] end) l))) /\
  option_map (rmap us_end) (run_strict us_element (us_new variant) l) =
  Some (to_value_sd (match variant with Some n => STupleVariant n l | None => SSeq l end)).
Proof.
  intros variant l. split.
  - destruct (run_seq l (us_new variant)) as (rs & E & ->). eexists. split; [exact E|]. unfold us_end. destruct variant; reflexivity.
  - rewrite strict_seq. destruct variant as [n|]; cbn [option_map to_value_sd]; destruct (mapM _ l); reflexivity.
Qed.
Print Assumptions C70_sequences.

Example C70_non_vacuous :
  let history := [CKey (SStr (s2l "a")); CKey (SChar 98); CKey SUnit; CValue (SBool true); CField (s2l "c") SFloat; CField (s2l "d") SUnit; CKey (SStr (s2l "e"))] in
  option_map (fun r => ns_end (snd r)) (run ns_call (ns_new None) history) = Some (named_composite [([98%N], vbool true); (s2l "d", unnamed_composite [])]) /\
  option_map fst (run ns_call (ns_new None) history) =
    Some [Ok tt; Ok tt; Err SEMapKeyMustBeStringlike; Ok tt; Err SECannotSerializeFloats; Ok tt; Ok tt] /\
  pending (firstn 3 history) [98%N] /\
  run ns_call (ns_new None) [CKey (SStr (s2l "a")); CValue SFloat; CValue SUnit] = None.
Proof.
  split; [reflexivity|]. split; [reflexivity|]. split; [|reflexivity].
  exists [CKey (SStr (s2l "a"))], (SChar 98), [CKey SUnit]. split; [reflexivity|]. split; [right; exists 98%N; now split|]. split.
  - intros x [H|[]]. discriminate H.
  - intros k s [H|[]]. injection H as <-. intros [H|(c & H & _)]; discriminate H.
Qed.
