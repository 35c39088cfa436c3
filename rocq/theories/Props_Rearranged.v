(** * Props_Rearranged: C110 the order and the names of fields *)
From Coq Require Import Permutation.
From Verif Require Import Base Value Spec_Value ValueFacts Spec_Fmt Registry Spec_Scale Spec_Decode Spec_Encode Serde SerdeFacts Spec_Serde Spec_Parts Spec_Foreign ForeignFacts
  Scale ScaleFacts BitsFacts LenFacts Decode DecodeFacts DecodeMore Encode EncodeFacts EncodeSound EncodeComplete EncodeMore EncodeWrap Spec_Json JsonFacts Spec_Rearranged EncodeReorder JsonReorder.
From Verif Require Import Demo Props_Decode Props_Encode Props_Foreign Props_Json.
Local Open Scope N_scope.

(** ** Rearranged values *)
(** A value that decoded can be rearranged at any depth: it is still encoded to the bytes it came from. *)
Theorem C110_any_arrangement : forall TId C (reg : TId -> resolution TId) X (ctxf : TId -> C) t bs v r, rt_ok reg X -> (forall t st o, reg t <> ResTy (TBitSeq st o)) ->
  is_bytes bs -> decodes reg X ctxf t bs v r -> (x_len64 X = true -> short v) ->
  exists pre, bs = pre ++ r /\ forall D (w : value D), rearranged v w -> encodes reg X w t pre.
Proof.
  intros TId C reg X ctxf t bs v r RT NB HB D SV. apply C21_decode_iff_encoding in D as (pre & -> & E); [|exact HB]. exists pre. split; [reflexivity|].
  apply (enc_at_32 _ _ _ _ _ _ _ _ _ SV) in E. apply (no_bits_strict reg _ _ ctxf NB) in E. intros D w RA. apply encodes_yields. eapply encode_rearranged; eauto.
Qed.
Print Assumptions C110_any_arrangement.

(** With bit sequences (which may also be given as lists): bytes of the same length that decode to the same value. *)
Theorem C110_any_arrangement_bits : forall TId C (reg : TId -> resolution TId) X (ctxf : TId -> C) t bs v r, rt_ok reg X ->
  is_bytes bs -> decodes reg X ctxf t bs v r -> (x_len64 X = true -> short v) ->
  exists pre pre', bs = pre ++ r /\ length pre' = length pre /\ decodes reg X ctxf t pre' v [] /\ forall D (w : value D), rearranged v w -> encodes reg X w t pre'.
Proof.
  intros TId C reg X ctxf t bs v r RT HB D SV. apply C21_decode_iff_encoding in D as (pre & -> & E); [|exact HB].
  apply (enc_at_32 _ _ _ _ _ _ _ _ _ SV) in E. apply (proj1 (strictify reg _ _ ctxf)) in E as (pre' & E & L). destruct (C24_reencode_exact TId C reg X ctxf t v pre' RT E) as [D' _].
  exists pre, pre'. split; [reflexivity|]. split; [exact L|]. split; [exact D'|]. intros D0 w RA. apply encodes_yields. eapply encode_rearranged; eauto.
Qed.
Print Assumptions C110_any_arrangement_bits.

(** So of two arrangements of it none is refused or encoded differently from the other. *)
Theorem C110_arrangements_alike : forall TId C (reg : TId -> resolution TId) X (ctxf : TId -> C) t bs v r D1 D2 (w1 : value D1) (w2 : value D2) b, rt_ok reg X ->
  is_bytes bs -> decodes reg X ctxf t bs v r -> (x_len64 X = true -> short v) -> rearranged v w1 -> rearranged v w2 -> (encodes reg X w1 t b <-> encodes reg X w2 t b).
Proof.
  intros TId C reg X ctxf t bs v r D1 D2 w1 w2 b RT HB D SV R1 R2. destruct (C110_any_arrangement_bits TId C reg X ctxf t bs v r RT HB D SV) as (pre & pre' & _ & _ & _ & H).
  specialize (H D1 w1 R1) as H1. specialize (H D2 w2 R2) as H2. split; intro E.
  - rewrite (encodes_fun _ _ _ _ _ _ E H1). exact H2.
  - rewrite (encodes_fun _ _ _ _ _ _ E H2). exact H1.
Qed.
Print Assumptions C110_arrangements_alike.

(** ** JSON that was reordered on the way *)
(** No struct has a field with the name that is taken for bit sequences. *)
Definition reserved_unused {TId} (reg : TId -> resolution TId) : Prop := forall t fs, reg t = ResTy (TComposite fs) -> ~ In (Some reserved_key) (map fst fs).

Lemma reserved_nodes {TId C} (reg : TId -> resolution TId) mb lb (ctxf : TId -> C) strict : json_types reg -> reserved_unused reg ->
  (forall c t v b, enc reg mb lb ctxf PU256 strict c t v b -> all_nodes no_field_reserved v) /\
  (forall c ts vs b, encs reg mb lb ctxf PU256 strict c ts vs b -> Forall (all_nodes no_field_reserved) vs).
Proof.
  intros JT RU. apply enc_encs_ind.
  - intros. constructor; [exact I|constructor].
  - intros. constructor; [exact I|constructor].
  - intros; assumption.
  - intros c t fs vs cmp bs R _ _ IH Sh. specialize (RU t fs R). constructor; [|inversion Sh; subst; exact IH].
    inversion Sh as [kvs Hne E1 E2 E3|]; subst; [|exact I]. cbn [no_field_reserved]. intro H. apply RU. rewrite <- E1. rewrite <- (map_map fst Some). apply in_map, H.
  - intros. constructor; [exact I|assumption].
  - intros t l1 name idx fs l2 vs cmp bs R. specialize (JT t). rewrite R in JT. contradiction.
  - intros. constructor; [exact I|assumption].
  - intros. constructor; [exact I|assumption].
  - intros. constructor; [exact I|constructor].
  - constructor.
  - intros. constructor; assumption.
Qed.

(** SCALE bytes to value to JSON, the entries of its objects in any order (serde_json sorts them by their names), to value to SCALE bytes: the bytes. *)
Theorem C110_scale_json_scale : forall TId C U (reg : TId -> resolution TId) X (ctxf : TId -> C) t bs v r, rt_ok reg X -> json_types reg -> reserved_unused reg ->
  is_bytes bs -> decodes reg X ctxf t bs v r -> (x_len64 X = true -> short v) ->
  exists j pre pre', json_of v j /\ bs = pre ++ r /\ length pre' = length pre /\ ((forall t st o, reg t <> ResTy (TBitSeq st o)) -> pre' = pre) /\ decodes reg X ctxf t pre' v [] /\
    forall j', objects_reordered j j' -> exists w, de TyValue (SrcDoc (T := U) j') = Ok (XValue w) /\ rearranged v w /\ encodes reg X w t pre'.
Proof.
  intros TId C U reg X ctxf t bs v r RT JT RU HB D SV. destruct (C110_any_arrangement_bits TId C reg X ctxf t bs v r RT HB D SV) as (pre & pre' & -> & L & D' & H).
  assert (NB : (forall t st o, reg t <> ResTy (TBitSeq st o)) -> pre' = pre).
  { intro NB. destruct (C110_any_arrangement TId C reg X ctxf t (pre ++ r) v r RT NB HB D SV) as (p & E & H2). apply app_inv_tail in E. subst p.
    assert (RR : forall x : value C, rearranged x x).
    { clear. intro x. induction x as [d ctx IH] using value_ind'. destruct d as [c|n c|b|p]; cbn [children] in IH.
      - apply RA_composite. destruct c as [l|l]; cbn [values] in IH.
        + eapply FR_named; [apply Permutation_refl|]. induction l as [|a l IHl]; constructor; [split; [reflexivity|now inversion IH]|apply IHl; now inversion IH].
        + apply FR_unnamed. induction IH; constructor; assumption.
      - apply RA_variant. destruct c as [l|l]; cbn [values] in IH.
        + eapply FR_named; [apply Permutation_refl|]. induction l as [|a l IHl]; constructor; [split; [reflexivity|now inversion IH]|apply IHl; now inversion IH].
        + apply FR_unnamed. induction IH; constructor; assumption.
      - apply RA_bits.
      - apply RA_prim, SP_same. }
    exact (encodes_fun _ _ _ _ _ _ (H _ v (RR v)) (H2 _ v (RR v))). }
  apply C21_decode_iff_encoding in D as (b & _ & E'); [|exact HB]. apply (proj1 (json_types_nodes reg _ _ _ _ JT)) in E' as A. apply all_nodes_and in A as (HK & HF & HN).
  apply (proj1 (reserved_nodes reg _ _ _ _ JT RU)) in E' as HR.
  destruct (good_any v HF) as (d & G & _). exists (through_json d), pre, pre'. split; [exists d; auto|]. split; [reflexivity|]. split; [exact L|]. split; [exact NB|]. split; [exact D'|].
  intros j' O. destruct (reads_any v HR HK HN d j' G O) as (NL & w & M & RA). exists w. split; [apply C75_read_iff; assumption|]. split; [exact RA|apply H, RA].
Qed.
Print Assumptions C110_scale_json_scale.

(** ** Limits *)
(** The name of an only field cannot be left out: the contents of the field are tried as a list of such structs. *)
Theorem C110_only_field_refuted : exists TId (reg : TId -> resolution TId) X t bs bs' n (x : value unit), rt_ok reg X /\
  decodes reg X (fun _ => tt) t bs (named_composite [(n, x)]) [] /\ encodes reg X (unnamed_composite [x]) t bs' /\ bs' <> bs.
Proof.
  set (reg := fun t : nat => match t with 0%nat => ResTy (TPrim (PtU W8)) | 1%nat => ResTy (TSequence 0%nat) | 2%nat => ResTy (TSequence 1%nat) | 3%nat => ResTy (TComposite [(nm "data", 2%nat)]) | _ => ResNotFound end).
  exists nat, reg, xdemo, 3%nat, [4; 0], [0], (s2l "data"), (unnamed_composite [unnamed_composite []]). split; [|split; [exists 4%nat; reflexivity|split; [exists 4%nat; reflexivity|discriminate]]].
  constructor.
  - intros t fs R. unfold names_ok. do 4 (destruct t as [|t]; [try discriminate R; try (injection R as <-; cbn; intro; repeat constructor; cbn; intuition discriminate)|]). discriminate.
  - intros t vs R. do 4 (destruct t as [|t]; [discriminate R|]). discriminate.
  - intros t1 t2 t3 u H1. inversion H1 as [? ? R|? ? R]; subst; do 4 (destruct t1 as [|t1]; [discriminate R|]); discriminate.
  - intros t t' u e R. do 4 (destruct t as [|t]; [discriminate R|]). discriminate.
  - reflexivity.
  - reflexivity.
Qed.
Print Assumptions C110_only_field_refuted.

(** Of a value that was not decoded at the type the order of the named fields does matter: a tuple takes them as they come. *)
Theorem C110_any_value_refuted : exists TId (reg : TId -> resolution TId) X t (v w : value unit) b b', rt_ok reg X /\ rearranged v w /\
  encodes reg X v t b /\ encodes reg X w t b' /\ b <> b'.
Proof.
  exists nat, demo_rt, xdemo, 8%nat, (named_composite [(s2l "x", vu128 1); (s2l "y", vu128 2)]), (named_composite [(s2l "y", vu128 2); (s2l "x", vu128 1)]), [1; 2], [2; 1].
  split; [exact C24_demo_rt_ok|]. split; [|split; [exists 4%nat; reflexivity|split; [exists 4%nat; reflexivity|discriminate]]].
  apply RA_composite. eapply FR_named; [apply perm_swap|]. constructor; [split; [reflexivity|apply RA_prim, SP_same]|]. constructor; [split; [reflexivity|apply RA_prim, SP_same]|constructor].
Qed.
Print Assumptions C110_any_value_refuted.

(** ** Non-vacuity *)
(** struct { e: enum { .. B { x: bool, y: Vec<u8> } }, t: (u8, bool) }: both orders turned round, and the outer names dropped. *)
Example C110_example : exists v, decodes demo_rt xdemo (fun _ => tt) 23%nat [5; 1; 4; 9; 3; 0; 77] v [77] /\ short v /\
  rearranged v (named_composite [(s2l "t", unnamed_composite [vi128 3; vbool false]); (s2l "e", named_variant (s2l "B") [(s2l "y", unnamed_composite [vu128 9]); (s2l "x", vbool true)])]) /\
  rearranged v (unnamed_composite [unnamed_variant (s2l "B") [vbool true; unnamed_composite [vu128 9]]; unnamed_composite [vu128 3; vbool false]]) /\
  encode demo_rt xdemo 9 (named_composite [(s2l "t", unnamed_composite [vi128 3; vbool false]); (s2l "e", named_variant (s2l "B") [(s2l "y", unnamed_composite [vu128 9]); (s2l "x", vbool true)])])
    23%nat [] = (SOk, [5; 1; 4; 9; 3; 0]) /\
  encode demo_rt xdemo 9 (unnamed_composite [unnamed_variant (s2l "B") [vbool true; unnamed_composite [vu128 9]]; unnamed_composite [vu128 3; vbool false]])
    23%nat [] = (SOk, [5; 1; 4; 9; 3; 0]).
Proof.
  exists (named_composite [(s2l "e", named_variant (s2l "B") [(s2l "x", vbool true); (s2l "y", unnamed_composite [vu128 9])]); (s2l "t", unnamed_composite [vu128 3; vbool false])]).
  split; [exists 6%nat; reflexivity|]. split; [exact (proj2 C24_short_value)|]. split; [|split; [|split; reflexivity]].
  - apply RA_composite. eapply FR_named; [apply perm_swap|]. constructor; [split; [reflexivity|]|constructor; [split; [reflexivity|]|constructor]]; cbn [snd].
    + apply RA_composite, FR_unnamed. constructor; [apply RA_prim; exact (SP_signed 3)|constructor; [apply RA_prim, SP_same|constructor]].
    + apply RA_variant. eapply FR_named; [apply perm_swap|]. constructor; [split; [reflexivity|]|constructor; [split; [reflexivity|]|constructor]]; cbn [snd].
      * apply RA_composite, FR_unnamed. constructor; [apply RA_prim, SP_same|constructor].
      * apply RA_prim, SP_same.
  - apply RA_composite, FR_nameless; [discriminate|]. cbn [map snd]. constructor; [|constructor; [|constructor]].
    + apply RA_variant, FR_nameless; [auto|]. cbn [map snd]. constructor; [apply RA_prim, SP_same|constructor; [|constructor]].
      apply RA_composite, FR_unnamed. constructor; [apply RA_prim, SP_same|constructor].
    + apply RA_composite, FR_unnamed. constructor; [apply RA_prim, SP_same|constructor; [apply RA_prim, SP_same|constructor]].
Qed.
Example C110_json_example : reserved_unused json_reg /\
  objects_reordered (FMap [(s2l "id", FInt false 64 1); (s2l "who", FStr (s2l "hi")); (s2l "deltas", FSeq [FInt true 64 (-1); FInt false 64 5])])
    (FMap [(s2l "deltas", FSeq [FInt true 64 (-1); FInt false 64 5]); (s2l "id", FInt false 64 1); (s2l "who", FStr (s2l "hi"))]).
Proof.
  split.
  - intros t fs R. do 6 (destruct t as [|t]; [try discriminate R; try (injection R as <-; vm_compute; intuition discriminate)|]). discriminate.
  - eapply OR_object; [apply (Permutation_trans (perm_skip _ (perm_swap _ _ _))), perm_swap|].
    repeat (constructor; [split; [reflexivity|cbn [snd]; first [apply OR_other; discriminate|apply OR_list; repeat (constructor; [apply OR_other; discriminate|]); constructor]]|]). constructor.
Qed.
