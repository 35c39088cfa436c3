(** * Props_Rust: C67: SCALE meets serde. *)
From Verif Require Import Base Value Spec_Value ValueFacts Registry Spec_Scale Scale ScaleFacts BitsFacts Decode DecodeFacts Encode EncodeFacts
  Spec_Encode LenFacts EncodeSound EncodeComplete EncodeTerm EncodeMore Serde SerdeFacts Spec_Serde SerdeRt SerdeUni Spec_Rust RustFacts Demo Props_Decode Props_Encode Props_Serde.
Open Scope N_scope.

(** ** C67 *)
(** For every Rust type [R] (Spec_Rust: bool, integers, compact integers, String, (), Option, Vec, arrays, tuples, structs of every kind, enums with any indices) registered
    as [t], and every datum [d] of it: decoding its SCALE bytes gives, up to the type ids kept as context, the very value [to_value] makes of [d].
    ([type_info reg false]: structs and variants written with braces have at least one field.) *)
Theorem C67_decode_is_to_value : forall TId C (reg : TId -> resolution TId) X (ctxf : TId -> C) t R d bs rest,
  type_info reg false t R -> scale R d bs ->
  exists v, decodes reg X ctxf t (bs ++ rest) v rest /\ to_value (serde_of R) d = Ok (remove_context v).
Proof.
  intros TId C reg X ctxf t R d bs rest HI HS. destruct (proj1 (agree_mut reg (x_maxbits X) ctxf PU256 false) R d bs HS t HI) as (v & E & TV & _).
  exists v. split; [|exact TV]. apply enc_at_x in E. apply (decode_complete reg X ctxf false) in E as [f0 H]. exists f0. apply H. lia.
Qed.
Print Assumptions C67_decode_is_to_value.

(** Therefore [from_value] reads the datum out of the decoded value.  ([ty_wf]: no newtypes, see C41; names differ.) *)
Theorem C67_from_scale : forall TId C (reg : TId -> resolution TId) X (ctxf : TId -> C) t R d bs rest,
  type_info reg false t R -> ty_wf (serde_of R) -> scale R d bs ->
  exists v, decodes reg X ctxf t (bs ++ rest) v rest /\ from_value (serde_of R) v = Ok d.
Proof.
  intros TId C reg X ctxf t R d bs rest HI WF HS. destruct (proj1 (agree_mut reg (x_maxbits X) ctxf PU256 false) R d bs HS t HI) as (v & E & TV & OT).
  destruct (C67_decode_is_to_value TId C reg X ctxf t R d bs rest HI HS) as (v' & D & TV'). exists v'. split; [exact D|].
  destruct (C40_round_trip (serde_of R) d WF OT) as (w & W1 & W2). rewrite TV' in W1. injection W1 as <-.
  rewrite <- W2. apply C53_same_shape_same_result. symmetry. apply remove_context_id.
Qed.
Print Assumptions C67_from_scale.

(** ... and encoding [to_value(d)] writes the bytes the derived [Encode] writes. *)
Theorem C67_to_scale : forall TId (reg : TId -> resolution TId) X t R d bs, rt_ok reg X ->
  type_info reg false t R -> scale R d bs ->
  exists w, to_value (serde_of R) d = Ok w /\ encodes reg X w t bs.
Proof.
  intros TId reg X t R d bs RT HI HS. destruct (proj1 (agree_mut reg (x_maxbits X) (fun t => t) PU256 true) R d bs HS t HI) as (v & E & TV & _).
  exists (remove_context v). split; [exact TV|]. destruct (C24_reencode_exact TId TId reg X (fun t => t) t v bs RT E) as [_ [F EN]].
  exists F. intro out. rewrite <- EN. apply C28_contexts_do_not_matter. apply remove_context_id.
Qed.
Print Assumptions C67_to_scale.

(** Conversely, whatever decodes at [t] is the encoding of a datum of [R], and [from_value] reads that datum. *)
Theorem C67_only_data : forall TId C (reg : TId -> resolution TId) X (ctxf : TId -> C) t R bs v r, is_bytes bs ->
  type_info reg false t R -> ty_wf (serde_of R) -> decodes reg X ctxf t bs v r -> (x_len64 X = true -> short v) ->
  exists d pre, bs = pre ++ r /\ scale R d pre /\ of_type (serde_of R) d /\ from_value (serde_of R) v = Ok d /\ to_value (serde_of R) d = Ok (remove_context v).
Proof.
  intros TId C reg X ctxf t R bs v r HB HI WF D SV. pose proof D as D'. apply C21_decode_iff_encoding in D' as (pre & -> & E); [|exact HB].
  apply (enc_at_32 _ _ _ _ _ _ _ _ _ SV) in E. destruct (proj1 (back_mut reg false (x_maxbits X) ctxf PU256 false) _ _ _ _ E eq_refl R HI) as (d & S). exists d, pre. split; [reflexivity|]. split; [exact S|].
  destruct (proj1 (agree_mut reg (x_maxbits X) ctxf PU256 false) R d pre S t HI) as (_ & _ & _ & OT). split; [exact OT|].
  destruct (C67_decode_is_to_value TId C reg X ctxf t R d pre r HI S) as (v1 & D1 & TV). destruct (C67_from_scale TId C reg X ctxf t R d pre r HI WF S) as (v2 & D2 & FV).
  assert (UQ : forall a, decodes reg X ctxf t (pre ++ r) a r -> a = v).
  { intros a [f1 H1]. destruct D as [f2 H2]. assert (EQ : decode_as_type reg X ctxf f1 t (pre ++ r) = decode_as_type reg X ctxf f2 t (pre ++ r)) by (apply C21_fuel_irrelevant; congruence). congruence. }
  rewrite (UQ v1 D1) in TV. rewrite (UQ v2 D2) in FV. auto.
Qed.
Print Assumptions C67_only_data.

(** Every description of a Rust type satisfies it: a struct with a compact number, an option, an enum with its own indices, an array and a tuple. *)
Definition rust_demo : rust :=
  RStruct [(s2l "id", RCompact W32); (s2l "who", ROption RString);
           (s2l "kind", REnum [(s2l "Off", (3, VsUnit)); (s2l "At", (7, VsStruct [(s2l "x", RInt true W16)])); (s2l "Pair", (1, VsTuple [RBool; RInt false W8]))]);
           (s2l "xs", RArray (RInt false W8) 2); (s2l "l", RVec (RTuple [RInt false W8; RBool]))].
Definition rust_reg (t : nat) : resolution nat :=
  match t with
  | 0%nat => ResTy (TComposite [(nm "id", 1%nat); (nm "who", 3%nat); (nm "kind", 5%nat); (nm "xs", 9%nat); (nm "l", 10%nat)])
  | 1%nat => ResTy (TCompact 2%nat)
  | 2%nat => ResTy (TPrim (PtU W32))
  | 3%nat => ResTy (TVariant [VInfo (s2l "None") 0 []; VInfo (s2l "Some") 1 [(None, 4%nat)]])
  | 4%nat => ResTy (TPrim PtStr)
  | 5%nat => ResTy (TVariant [VInfo (s2l "Off") 3 []; VInfo (s2l "At") 7 [(nm "x", 6%nat)]; VInfo (s2l "Pair") 1 [(None, 7%nat); (None, 8%nat)]])
  | 6%nat => ResTy (TPrim (PtI W16))
  | 7%nat => ResTy (TPrim PtBool)
  | 8%nat => ResTy (TPrim (PtU W8))
  | 9%nat => ResTy (TArray 8%nat 2)
  | 10%nat => ResTy (TSequence 11%nat)
  | 11%nat => ResTy (TTuple [8%nat; 7%nat])
  | _ => ResNotFound
  end.
Definition rust_data : data :=
  XStruct [(s2l "id", XInt 300); (s2l "who", XSome (XString (s2l "me"))); (s2l "kind", XEnum (s2l "At") (VsStruct [(s2l "x", XInt (-2))]));
           (s2l "xs", XTuple [XInt 5; XInt 6]); (s2l "l", XVec [XTuple [XInt 9; XBool true]])].
Definition rust_bytes : bytes := [177; 4; 1; 8; 109; 101; 7; 254; 255; 5; 6; 4; 9; 1].
Example C67_demo_info : type_info rust_reg false 0%nat rust_demo.
Proof.
  unfold rust_demo. eapply I_struct; [reflexivity|].
  apply (F_struct rust_reg false [1; 3; 5; 9; 10]%nat [(s2l "id", RCompact W32); (s2l "who", ROption RString);
           (s2l "kind", REnum [(s2l "Off", (3, VsUnit)); (s2l "At", (7, VsStruct [(s2l "x", RInt true W16)])); (s2l "Pair", (1, VsTuple [RBool; RInt false W8]))]);
           (s2l "xs", RArray (RInt false W8) 2); (s2l "l", RVec (RTuple [RInt false W8; RBool]))]); [discriminate|repeat constructor; cbn; intuition discriminate|].
  cbn [map snd]. apply Is_cons; [eapply I_compact; reflexivity|]. apply Is_cons; [eapply I_option; [reflexivity|apply I_string; reflexivity]|].
  apply Is_cons; [eapply I_enum; [reflexivity|repeat constructor; cbn; intuition discriminate|repeat constructor; cbn; intuition discriminate|repeat constructor|]|].
  { apply V_cons; [apply F_unit|]. apply V_cons.
    - apply (F_struct rust_reg false [6%nat] [(s2l "x", RInt true W16)]); [discriminate|repeat constructor; cbn; intuition discriminate|]. apply Is_cons; [apply I_int; reflexivity|constructor].
    - apply V_cons; [|constructor]. apply (F_tuple rust_reg false [7; 8]%nat). apply Is_cons; [apply I_bool; reflexivity|]. apply Is_cons; [apply I_uint; reflexivity|constructor]. }
  apply Is_cons; [eapply I_array; [reflexivity|apply I_uint; reflexivity]|]. apply Is_cons; [|constructor].
  eapply I_vec; [reflexivity|]. eapply I_tuple; [reflexivity|]. apply Is_cons; [apply I_uint; reflexivity|]. apply Is_cons; [apply I_bool; reflexivity|constructor].
Qed.
Example C67_demo_wf : ty_wf (serde_of rust_demo).
Proof. cbn [ty_wf rust_demo serde_of map fold_right shape_map repeat]. repeat split; cbn; auto 10; try (repeat constructor; cbn; intuition discriminate); discriminate. Qed.
Example C67_demo_scale : scale rust_demo rust_data rust_bytes.
Proof.
  unfold rust_demo. change rust_data with (XStruct (combine (map s2l ["id"; "who"; "kind"; "xs"; "l"]%string) (map snd match rust_data with XStruct l => l | _ => [] end))).
  apply (S_struct [(s2l "id", RCompact W32); (s2l "who", ROption RString);
           (s2l "kind", REnum [(s2l "Off", (3, VsUnit)); (s2l "At", (7, VsStruct [(s2l "x", RInt true W16)])); (s2l "Pair", (1, VsTuple [RBool; RInt false W8]))]);
           (s2l "xs", RArray (RInt false W8) 2); (s2l "l", RVec (RTuple [RInt false W8; RBool]))]). cbn [map snd rust_data].
  assert (BY : forall n, n < 256 -> le_enc 1 n [n]) by (intros n Hn; split; [repeat constructor; exact Hn|]; split; [reflexivity|cbn; lia]).
  apply (Ss_cons _ _ _ _ [177; 4]). { apply (S_compact W32 300); [reflexivity|]. apply CE_2; [split; [discriminate|reflexivity]|]. repeat split; repeat constructor. }
  apply (Ss_cons _ _ _ _ [1; 8; 109; 101]). { apply S_some. apply (S_string (s2l "me") [8]); [reflexivity|reflexivity|]. apply (CE_1 2). reflexivity. }
  apply (Ss_cons _ _ _ _ [7; 254; 255]).
  { eapply S_enum; [right; left; reflexivity|]. apply (SB_struct [(s2l "x", RInt true W16)] [XInt (-2)] [254; 255]). apply (Ss_cons _ _ _ _ [254; 255] []); [|constructor].
    apply S_int; [split; [discriminate|reflexivity]|]. repeat split; repeat constructor. }
  apply (Ss_cons _ _ _ _ [5; 6]). { apply S_array. apply (Ss_cons _ _ _ _ [5] [6]); [apply (S_uint W8 5); apply BY; reflexivity|]. apply (Ss_cons _ _ _ _ [6] []); [apply (S_uint W8 6); apply BY; reflexivity|constructor]. }
  apply (Ss_cons _ _ _ _ [4; 9; 1] []); [|constructor].
  apply (S_vec _ [XTuple [XInt 9; XBool true]] [4] [9; 1]); [reflexivity|apply (CE_1 1); reflexivity|].
  apply (Ss_cons _ _ _ _ [9; 1] []); [|constructor]. apply S_tuple. apply (Ss_cons _ _ _ _ [9] [1]); [apply (S_uint W8 9); apply BY; reflexivity|].
  apply (Ss_cons _ _ _ _ [1] []); [apply S_true|constructor].
Qed.
Example C67_demo_run : match to_value (serde_of rust_demo) rust_data with
  | Ok w => decodes rust_reg xdemo (fun _ => tt) 0%nat rust_bytes w [] /\ encodes rust_reg xdemo w 0%nat rust_bytes /\ from_value (serde_of rust_demo) w = Ok rust_data
  | Err _ => False end.
Proof. cbn [to_value]. split; [exists 9%nat; vm_compute; reflexivity|]. split; [exists 9%nat; reflexivity|vm_compute; reflexivity]. Qed.

(** Braces without fields: SCALE gives [()], serde gives [{}]; both are still read as the datum and encode to nothing. *)
Theorem C67_empty_braces_refuted : exists (reg : nat -> resolution nat) X R d bs v w, type_info reg true 0%nat R /\ scale R d bs /\
  decodes reg X (fun _ => tt) 0%nat bs v [] /\ to_value (serde_of R) d = Ok w /\ w <> v /\
  from_value (serde_of R) v = Ok d /\ encodes reg X w 0%nat bs.
Proof.
  exists (fun _ => ResTy (TComposite [])), xdemo, (RStruct []), (XStruct []), [], (unnamed_composite []), (named_composite []).
  split; [eapply I_struct; [reflexivity|]; apply (F_struct _ true [] []); [discriminate|constructor|constructor]|].
  split; [apply (S_struct [] []); constructor|]. split; [exists 2%nat; reflexivity|]. split; [reflexivity|]. split; [discriminate|]. split; [reflexivity|].
  exists 2%nat. intro out. cbn. rewrite app_nil_r. reflexivity.
Qed.
Print Assumptions C67_empty_braces_refuted.
(** Newtypes: the decoded value is the value of serde, but [from_value] does not read it (C41). *)
Theorem C67_newtype_refuted : exists (reg : nat -> resolution nat) X R d bs v e, type_info reg false 0%nat R /\ scale R d bs /\
  decodes reg X (fun _ => tt) 0%nat bs v [] /\ to_value (serde_of R) d = Ok v /\ from_value (serde_of R) v = Err e.
Proof.
  exists (fun t => match t with 0%nat => ResTy (TComposite [(None, 1%nat)]) | _ => ResTy (TPrim (PtU W8)) end), xdemo, (RNewtype (RInt false W8)), (XNewtype (XInt 5)), [5], (unnamed_composite [vu128 5]), DType.
  split; [eapply I_newtype; [reflexivity|apply I_uint; reflexivity]|]. split; [apply S_newtype; apply (S_uint W8 5); repeat split; repeat constructor|].
  split; [exists 3%nat; reflexivity|]. split; [reflexivity|reflexivity].
Qed.
Print Assumptions C67_newtype_refuted.
