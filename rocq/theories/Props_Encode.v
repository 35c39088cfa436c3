(** * Props_Encode: C24-C28, C31-C35, C37, C38
    Vocabulary: [encodes reg X v t bs] (EncodeMore): encoding [v] as a [t] succeeds and appends [bs]; [decodes] (Props_Decode);
    [parts P ts vs bs] (EncodeComplete): [bs] is the concatenation of one piece per item, each related by [P] to its type and value. *)
From Coq Require Import Permutation.
From Verif Require Import Base Value ValueFacts Registry Spec_Scale Spec_Decode Spec_Encode Scale ScaleFacts BitsFacts.
From Verif Require Import Decode DecodeFacts DecodeMore Encode EncodeFacts LenFacts EncodeSound EncodeComplete EncodeTerm EncodeMore EncodeWrap Demo Props_Decode.
Local Open Scope N_scope.

(** The recursion bound does not matter: two runs that finish agree. *)
Theorem C27_fuel_irrelevant : forall TId T (reg : TId -> resolution TId) X F1 F2 (v : value T) t out,
  fst (encode reg X F1 v t out) <> SHang -> fst (encode reg X F2 v t out) <> SHang -> encode reg X F1 v t out = encode reg X F2 v t out.
Proof.
  intros TId T reg X F1 F2 v t out H1 H2. rewrite <- (encode_fuel_mono reg X F1 (Nat.max F1 F2) v t out) by (lia || exact H1).
  rewrite <- (encode_fuel_mono reg X F2 (Nat.max F1 F2) v t out) by (lia || exact H2). reflexivity.
Qed.
Print Assumptions C27_fuel_irrelevant.

(** ** C27 *)
Theorem C27_encoding_only_appends : forall TId T (reg : TId -> resolution TId) X F (v : value T) t,
  exists s b, forall out, encode reg X F v t out = (s, out ++ b).
Proof. intros TId T reg X F v t. exact (encode_app reg X F v t). Qed.
Print Assumptions C27_encoding_only_appends.
Theorem C27_fields_only_append : forall TId T (reg : TId -> resolution TId) X F (v : value T) fs,
  exists s b, forall out, encode_as_fields reg X F v fs out = (s, out ++ b).
Proof.
  intros TId T reg X F [d ctx] fs. unfold encode_as_fields. cbn [vdef_of]. destruct d as [c|n c|b|p]; try (exists (SErr XNotComposite), []; intro; rewrite app_nil_r; reflexivity).
  exact (encode_composite_as_fields_app reg X F c fs).
Qed.
Print Assumptions C27_fields_only_append.
Example C27_appends : encode demo xdemo 9 (named_composite [(s2l "b", unnamed_composite [vu128 1; vu128 2]); (s2l "a", vu128 7)]) 4%nat [99] = (SOk, [99; 7; 8; 1; 2]).
Proof. reflexivity. Qed.

(** ** C28 *)
Theorem C28_contexts_do_not_matter : forall TId T U (reg : TId -> resolution TId) X F (v1 : value T) (v2 : value U) t out,
  remove_context v1 = remove_context v2 -> encode reg X F v1 t out = encode reg X F v2 t out.
Proof.
  intros TId T U reg X F v1 v2 t out H.
  rewrite <- (encode_map_context reg X F (pure_fn (fun _ : T => tt)) tt v1), <- (encode_map_context reg X F (pure_fn (fun _ : U => tt)) tt v2).
  unfold remove_context, map_ctx in H. rewrite H. reflexivity.
Qed.
Print Assumptions C28_contexts_do_not_matter.
Example C28_contexts : remove_context (Val (DPrim (PU128 3)) 17%nat) = remove_context (Val (DPrim (PU128 3)) true) /\ Val (DPrim (PU128 3)) 17%nat <> Val (DPrim (PU128 3)) 18%nat.
Proof. split; [reflexivity|discriminate]. Qed.

(** ** C24 *)
(** Bytes in which padding bits are zero are reproduced exactly. *)
Theorem C24_reencode_exact : forall TId C (reg : TId -> resolution TId) X (ctxf : TId -> C) t v bs, rt_ok reg X ->
  enc reg (x_maxbits X) 32 ctxf PU256 true false t v bs -> decodes reg X ctxf t bs v [] /\ encodes reg X v t bs.
Proof.
  intros TId C reg X ctxf t v bs RT E. split; [|apply encodes_yields; eapply encode_complete; eauto].
  apply enc_at_x in E. apply (decode_complete reg X ctxf true) in E as [f0 H]. exists f0. specialize (H f0 (le_n _) []). rewrite app_nil_r in H. exact H.
Qed.
Print Assumptions C24_reencode_exact.
(** In a registry without bit sequences: whatever decodes, re-encodes to the very bytes that were consumed. *)
Theorem C24_encode_inverts_decode : forall TId C (reg : TId -> resolution TId) X (ctxf : TId -> C) t v bs r, rt_ok reg X ->
  (forall t st o, reg t <> ResTy (TBitSeq st o)) -> is_bytes bs -> decodes reg X ctxf t bs v r -> (x_len64 X = true -> short v) -> exists pre, bs = pre ++ r /\ encodes reg X v t pre.
Proof.
  intros TId C reg X ctxf t v bs r RT NB HB D SV. apply C21_decode_iff_encoding in D as (pre & -> & E); [|exact HB]. exists pre. split; [reflexivity|].
  apply (enc_at_32 _ _ _ _ _ _ _ _ _ SV) in E. apply (no_bits_strict reg _ _ ctxf NB) in E. apply encodes_yields. eapply encode_complete; eauto.
Qed.
Print Assumptions C24_encode_inverts_decode.
(** With bit sequences: the same number of bytes, which decode to the same value, and are reproduced from then on. *)
Theorem C24_reencode_stable : forall TId C (reg : TId -> resolution TId) X (ctxf : TId -> C) t v bs r, rt_ok reg X ->
  is_bytes bs -> decodes reg X ctxf t bs v r -> (x_len64 X = true -> short v) ->
  exists pre pre', bs = pre ++ r /\ encodes reg X v t pre' /\ length pre' = length pre /\ decodes reg X ctxf t pre' v [].
Proof.
  intros TId C reg X ctxf t v bs r RT HB D SV. apply C21_decode_iff_encoding in D as (pre & -> & E); [|exact HB].
  apply (enc_at_32 _ _ _ _ _ _ _ _ _ SV) in E. apply (proj1 (strictify reg _ _ ctxf)) in E as (pre' & E & L). destruct (C24_reencode_exact TId C reg X ctxf t v pre' RT E) as [D' E'].
  exists pre, pre'. auto.
Qed.
Print Assumptions C24_reencode_stable.

(** A registry that satisfies the hypothesis: the demo registry without the entries that break it. *)
Definition demo_rt (t : nat) : resolution nat := match t with 12%nat | 15%nat | 25%nat | 28%nat => ResNotFound | _ => demo t end.
Definition compact_of (t u : nat) : Prop := demo_rt t = ResTy (TCompact u).
Lemma demo_compact t u : compact_of t u -> (t = 7%nat /\ u = 1%nat) \/ (t = 18%nat /\ u = 19%nat).
Proof. unfold compact_of. intro R. do 31 (destruct t as [|t]; [try discriminate R; try (injection R as <-); auto|]). discriminate. Qed.
Lemma demo_transparent t u : transparent demo_rt t u -> t = 11%nat /\ u = 13%nat.
Proof. intro H. inversion H as [? ? R|? ? R]; subst; do 31 (destruct t as [|t]; [try discriminate R; try (injection R as <-); auto|]); discriminate. Qed.
Example C24_demo_rt_ok : rt_ok demo_rt xdemo.
Proof.
  constructor.
  - intros t fs R. unfold names_ok. do 31 (destruct t as [|t]; [try discriminate R; try (injection R as <-; cbn; intro; repeat constructor; cbn; intuition discriminate)|]). discriminate.
  - intros t vs R. do 31 (destruct t as [|t]; [try discriminate R; try (injection R as <-; unfold names_ok; cbn; repeat constructor; cbn; intuition (try discriminate); repeat constructor; cbn; intuition discriminate)|]). discriminate.
  - intros t1 t2 t3 u H1 H2. apply demo_transparent in H1 as [-> ->]. apply demo_transparent in H2 as [H2 _]. discriminate.
  - intros t t' u e R Ch. destruct (demo_compact t t' R) as [[-> ->]|[-> ->]].
    + inversion Ch as [|? ? ? W]; subst; [discriminate|]. inversion W; discriminate.
    + inversion Ch as [|? a ? W Ch']; subst; [discriminate|]. inversion W as [? nm ? R'|? ? R']; subst; [|discriminate]. injection R' as <- <-.
      inversion Ch' as [|? ? ? W']; subst; [discriminate|]. inversion W'; discriminate.
  - reflexivity.
  - reflexivity.
Qed.
Example C24_roundtrip : decodes demo_rt xdemo (fun _ => tt) 23%nat [5; 1; 4; 9; 3; 0] 
    (named_composite [(s2l "e", named_variant (s2l "B") [(s2l "x", vbool true); (s2l "y", unnamed_composite [vu128 9])]); (s2l "t", unnamed_composite [vu128 3; vbool false])]) [] /\
  encodes demo_rt xdemo (named_composite [(s2l "e", named_variant (s2l "B") [(s2l "x", vbool true); (s2l "y", unnamed_composite [vu128 9])]); (s2l "t", unnamed_composite [vu128 3; vbool false])])
    23%nat [5; 1; 4; 9; 3; 0].
Proof. split; [exists 6%nat; reflexivity|exists 6%nat; reflexivity]. Qed.

(** The condition on lengths is met by the value of the example. *)
Example C24_short_value : x_len64 xdemo = true /\ short (named_composite [(s2l "e", named_variant (s2l "B") [(s2l "x", vbool true); (s2l "y", unnamed_composite [vu128 9])]); (s2l "t", unnamed_composite [vu128 3; vbool false])]).
Proof. split; [reflexivity|]. unfold short, named_composite, named_variant, unnamed_composite, vbool, vu128. repeat (constructor; cbn; try (unfold N.lt; reflexivity)). Qed.

(** Without the restriction the claim is false: struct W2(W1); struct W1(Vec<Vec<u8>>) and the value [[1], [2]]. *)
Theorem C24_nested_newtype_refuted : exists TId (reg : TId -> resolution TId) X t v bs bs', is_bytes bs /\
  (forall t st o, reg t = ResTy (TBitSeq st o) -> False) /\
  decodes reg X (fun _ => tt) t bs v [] /\ encodes reg X v t bs' /\ bs' <> bs /\ exists v', decodes reg X (fun _ => tt) t bs' v' [] /\ v' <> v.
Proof.
  exists nat, (fun t => match t with 0%nat => ResTy (TPrim (PtU W8)) | 5%nat => ResTy (TSequence 0%nat) | 13%nat => ResTy (TSequence 5%nat)
                      | 11%nat => ResTy (TComposite [(None, 13%nat)]) | 12%nat => ResTy (TComposite [(None, 11%nat)]) | _ => ResNotFound end), xdemo, 12%nat.
  exists (unnamed_composite [unnamed_composite [unnamed_composite [unnamed_composite [vu128 1]; unnamed_composite [vu128 2]]]]), [8; 4; 1; 4; 2], [4; 8; 1; 2].
  split; [repeat constructor|]. split; [intros t st o R; do 14 (destruct t as [|t]; [discriminate|]); discriminate|].
  split; [exists 8%nat; reflexivity|]. split; [exists 8%nat; reflexivity|]. split; [discriminate|].
  exists (unnamed_composite [unnamed_composite [unnamed_composite [unnamed_composite [vu128 1; vu128 2]]]]).
  split; [exists 8%nat; reflexivity|discriminate].
Qed.
Print Assumptions C24_nested_newtype_refuted.
(** Non-zero padding is not reproduced. *)
Theorem C24_padding_refuted : exists TId (reg : TId -> resolution TId) X t v bs bs', rt_ok reg X /\ is_bytes bs /\
  decodes reg X (fun _ => tt) t bs v [] /\ encodes reg X v t bs' /\ bs' <> bs.
Proof.
  exists nat, demo_rt, xdemo, 10%nat, (bit_sequence [true]), [4; 3], [4; 1].
  split; [exact C24_demo_rt_ok|]. split; [repeat constructor|]. split; [exists 2%nat; reflexivity|]. split; [exists 2%nat; reflexivity|discriminate].
Qed.
Print Assumptions C24_padding_refuted.

(** If scale-decode reads lengths as u64, six bytes decode to a [Vec<()>] of 2^32 elements, whose encoding announces none:
    encode.rs:137 casts the length to u32. *)
Lemma unit_encode_all X F n out : encode_all (map (encode demo_rt X (S F)) (repeat (Val (DComposite (Unnamed [])) 21%nat) n)) 21%nat out = (SOk, out).
Proof.
  induction n as [|n IH]; [reflexivity|]. cbn [repeat map encode_all].
  assert (E : encode demo_rt X (S F) (Val (DComposite (Unnamed [])) 21%nat) 21%nat out = (SOk, out ++ [])) by reflexivity.
  rewrite E, app_nil_r. cbn [andthen]. exact IH.
Qed.
Lemma unit_decode_items X f n : decode_items (decode demo_rt X (fun t => t) (S f) false) (repeat 21%nat n) [] = Ok (repeat (Val (DComposite (Unnamed [])) 21%nat) n, []).
Proof.
  induction n as [|n IH]; [reflexivity|]. cbn [repeat decode_items].
  change (decode demo_rt X (fun t => t) (S f) false 21%nat []) with (Ok (E:=derr) (Val (DComposite (Unnamed [])) 21%nat, @nil N)). cbn [bind snd]. rewrite IH. reflexivity.
Qed.
Lemma units_encode X F n out : encode demo_rt X (S F) (Val (DComposite (Unnamed (repeat (Val (DComposite (Unnamed [])) 21%nat) n))) 22%nat) 22%nat out =
  (SOk, out ++ compact_encode (N.of_nat n mod 2 ^ 32)).
Proof.
  cbn [encode]. unfold encode_composite, do_encode. cbn [composite_map demo_rt demo values clen].
  rewrite !map_map, map_length, repeat_length. cbn [snd fst].
  change (map (fun x : value nat => encode demo_rt X (S F) x) (repeat (Val (DComposite (Unnamed [])) 21%nat) n)) with (map (encode demo_rt X (S F)) (repeat (Val (DComposite (Unnamed [])) 21%nat) n)).
  rewrite unit_encode_all. reflexivity.
Qed.
Lemma units_decode n pre : compact_enc n pre -> n < 2 ^ 64 ->
  decodes demo_rt xdemo (fun t => t) 22%nat pre (Val (DComposite (Unnamed (repeat (Val (DComposite (Unnamed [])) 21%nat) (N.to_nat n)))) 22%nat) [].
Proof.
  intros HC HN. exists 2%nat. unfold decode_as_type. remember 1%nat as f1 eqn:Ef. cbn [decode demo_rt demo]. rewrite Ef. rewrite <- (app_nil_r pre).
  rewrite (compact_decode_complete _ _ _ _ HC HN). cbn [bind fst snd]. unfold to_unnamed. rewrite unit_decode_items. reflexivity.
Qed.
Theorem C24_long_refuted : exists TId (reg : TId -> resolution TId) X t v bs bs', rt_ok reg X /\ is_bytes bs /\
  decodes reg X (fun t => t) t bs v [] /\ encodes reg X v t bs' /\ bs' <> bs /\ ~ decodes reg X (fun t => t) t bs' v [].
Proof.
  assert (HC : compact_enc (2 ^ 32) [7; 0; 0; 0; 0; 1]).
  { change [7; 0; 0; 0; 0; 1] with (compact_encode (2 ^ 32)). apply compact_small. reflexivity. }
  remember (2 ^ 32) as n eqn:En.
  exists nat, demo_rt, xdemo, 22%nat, (Val (DComposite (Unnamed (repeat (Val (DComposite (Unnamed [])) 21%nat) (N.to_nat n)))) 22%nat), [7; 0; 0; 0; 0; 1], [0].
  split; [exact C24_demo_rt_ok|]. split; [repeat constructor|]. split; [apply units_decode; [exact HC|subst n; reflexivity]|].
  split; [exists 1%nat; intro out; rewrite units_encode, N2Nat.id; subst n; reflexivity|]. split; [discriminate|].
  intros [fuel D]. assert (E0 : decodes demo_rt xdemo (fun t => t) 22%nat [0] (Val (DComposite (Unnamed [])) 22%nat) []) by (exists 2%nat; reflexivity).
  destruct E0 as [f0 E0]. pose proof (C21_fuel_irrelevant nat nat demo_rt xdemo (fun t => t) fuel f0 22%nat [0]) as FI. rewrite D, E0 in FI.
  specialize (FI ltac:(discriminate) ltac:(discriminate)). injection FI as FI. apply (f_equal (@length _)) in FI. rewrite repeat_length in FI. cbn [length] in FI. lia.
Qed.
Print Assumptions C24_long_refuted.

(** ** C25 *)
(** [small]: lengths fit the prefixes, payloads are what Rust values can hold.  [reg_ok]: what every generated registry satisfies. *)
Theorem C25_output_is_valid : forall TId T (reg : TId -> resolution TId) X F (v : value T) t out out', reg_ok reg -> small (x_maxbits X) v ->
  encode reg X F v t out = (SOk, out') -> exists b w, out' = out ++ b /\ decodes reg X (fun t => t) t b w [].
Proof.
  intros TId T reg X F v t out out' OK SM H. apply (encode_snd reg X F (fun t => t) OK v SM) in H as (b & w & -> & E). exists b, w. split; [reflexivity|]. apply enc_at_x in E.
  apply (decode_complete reg X (fun t => t) true) in E as [f0 H]. exists f0. specialize (H f0 (le_n _) []). rewrite app_nil_r in H. exact H.
Qed.
Print Assumptions C25_output_is_valid.
Theorem C25_fields_output_is_valid : forall TId T (reg : TId -> resolution TId) X F (v : value T) fs out out', reg_ok reg -> small (x_maxbits X) v ->
  encode_as_fields reg X F v fs out = (SOk, out') ->
  exists b cmp, out' = out ++ b /\ exists fuel, decode_as_fields reg X (fun t => t) fuel fs b = Ok (cmp, []).
Proof.
  intros TId T reg X F [d ctx] fs out out' OK SM H. unfold encode_as_fields in H. cbn [vdef_of] in H. destruct d as [c|n c|b|p]; try discriminate.
  inversion SM as [? ? Hd Hc]; subst. apply (encode_composite_as_fields_snd reg X F (fun t => t) OK c Hc) in H as (b & vs & -> & E).
  assert (LEN : length (map fst fs) = length vs).
  { rewrite map_length, <- (map_length snd fs). clear -E. remember (map snd fs) as ts eqn:Ets. clear Ets.
    assert (G : forall cc ts vs b, encs reg (x_maxbits X) 32 (fun t : TId => t) PU256 true cc ts vs b -> length ts = length vs) by (induction 1; cbn; congruence). eapply G; eauto. }
  destruct (shape_exists (map fst fs) vs LEN) as [cmp Sh]. exists b, cmp. split; [reflexivity|]. apply encs_at_x in E.
  apply (proj2 (decode_complete_mut reg X (fun t => t) true)) in E as [f0 H]. exists f0. apply visit_composite_iff.
  exists vs. split; [|exact Sh]. specialize (H f0 (le_n _) []). rewrite app_nil_r in H. exact H.
Qed.
Print Assumptions C25_fields_output_is_valid.
Example C25_demo_ok : reg_ok demo_rt.
Proof.
  split.
  - intros t vs R. do 31 (destruct t as [|t]; [try discriminate R; try (injection R as <-; cbn; repeat constructor; cbn; intuition discriminate)|]). discriminate.
  - intros t t' u e R Ch. destruct (demo_compact t t' R) as [[-> ->]|[-> ->]].
    + inversion Ch as [|? ? ? W]; subst; [discriminate|]. inversion W as [? ? W1|]; [inversion W1|]; discriminate.
    + inversion Ch as [|? a ? W Ch']; subst; [discriminate|]. inversion W as [? ? W1|? ? R']; subst; [|discriminate]. inversion W1 as [? nm ? R'|? ? R']; subst; [|discriminate]. injection R' as <- <-.
      inversion Ch' as [|? ? ? W']; subst; [discriminate|]. inversion W' as [? ? W2|]; [inversion W2|]; discriminate.
Qed.
(** A value that is not in decoded form: a bare number for a newtype struct under Compact. *)
Example C25_coerced : encode demo_rt xdemo 9 (vu128 1000000) 18%nat [] = (SOk, [0x02; 0x09; 0x3d; 0x00]) /\
  decodes demo_rt xdemo (fun _ => tt) 18%nat [0x02; 0x09; 0x3d; 0x00] (named_composite [(s2l "id", vu128 1000000)]) [].
Proof. split; [reflexivity|exists 5%nat; reflexivity]. Qed.
(** The condition on what is inside a [Compact] is needed (no Rust type gives such a registry). *)
Theorem C25_compact_array_refuted : exists TId (reg : TId -> resolution TId) X F (v : value unit) t b, small (x_maxbits X) v /\
  encode reg X F v t [] = (SOk, b) /\ forall fuel w r, decode_as_type reg X (fun t => t) fuel t b <> Ok (w, r).
Proof.
  exists nat, demo, xdemo, 9%nat, (vu128 5), 28%nat, [20]. split; [repeat constructor|]. split; [reflexivity|].
  intros [|[|[|fuel]]] w r; discriminate.
Qed.
Print Assumptions C25_compact_array_refuted.

(** ** C26 *)
Theorem C26_failure_leaves_buffer : forall TId T (reg : TId -> resolution TId) X F (v : value T) t out s out',
  match vdef_of v with DVariant _ _ | DPrim (PU256 _) | DPrim (PI256 _) => False | _ => True end ->
  encode reg X F v t out = (s, out') -> s <> SOk -> out' = out.
Proof.
  intros TId T reg X F [d ctx] t out s out' Hd H Hs. cbn [vdef_of] in Hd.
  assert (LEAF : forall f, encode_leaf reg F f t out = (s, out') -> out' = out).
  { intros f E. unfold encode_leaf in E. destruct (find_single reg F t false) as [[u d']|]; [|congruence].
    destruct (reg u) as [| |ty]; try congruence. destruct (f ty); congruence. }
  assert (NUM : forall z, encode_number reg F z t out = (s, out') -> out' = out).
  { intros z E. unfold encode_number in E. destruct (find_single reg F t false) as [[u d']|]; [|congruence].
    destruct (reg u) as [| |[| | | | |[]|t2|]]; try congruence; try (destruct (in_unsigned _ _); congruence); try (destruct (in_signed _ _); congruence).
    destruct (find_single reg F t2 false) as [[u2 d2]|]; [|congruence]. destruct (reg u2) as [| |[| | | | |[]| |]]; try congruence. destruct (in_unsigned _ _); congruence. }
  destruct d as [c|n c|b|p]; try contradiction.
  - cbn [encode] in H. unfold encode_composite in H.
    repeat match type of H with
           | match ?x with _ => _ end = _ => destruct x
           | (let (_, _) := ?x in _) = _ => destruct x
           end; congruence.
  - eapply LEAF, H.
  - destruct p; try contradiction; cbn [encode encode_primitive] in H; try (eapply LEAF, H; fail); try (eapply NUM, H; fail).
    unfold encode_char in H. destruct (find_single reg F t false) as [[u d']|] eqn:E; [|congruence].
    destruct (reg u) as [| |[| | | | |[]| |]]; try (eapply NUM, H; fail). destruct (x_char X); congruence.
Qed.
Print Assumptions C26_failure_leaves_buffer.
Example C26_composite_kept : encode demo xdemo 9 (unnamed_composite [vu128 7; vstring (s2l "x")]) 9%nat [1; 2; 3] = (SErr XWrongShape, [1; 2; 3]).
Proof. reflexivity. Qed.
(** A variant whose second field fails leaves its index and its first field in the buffer. *)
Theorem C26_variant_refuted : exists TId (reg : TId -> resolution TId) X F (v : value unit) t out e out',
  encode reg X F v t out = (SErr e, out') /\ out' <> out.
Proof.
  exists nat, demo, xdemo, 9%nat, (named_variant (s2l "B") [(s2l "x", vbool true); (s2l "y", vbool true)]), 6%nat, [9]. do 2 eexists. split; [reflexivity|discriminate].
Qed.
Print Assumptions C26_variant_refuted.
(** So does a U256 at Vec<bool> (the length prefix). *)
Theorem C26_u256_refuted : exists TId (reg : TId -> resolution TId) X F b t out e out', length b = 32%nat /\
  encode reg X F (Val (DPrim (PU256 b)) tt) t out = (SErr e, out') /\ out' <> out.
Proof. exists nat, demo, xdemo, 9%nat, (repeat 1 32), 24%nat, [9]. do 2 eexists. split; [reflexivity|]. split; [reflexivity|discriminate]. Qed.
Print Assumptions C26_u256_refuted.
(** And field-wise encoding of a composite. *)
Theorem C26_fields_refuted : exists TId (reg : TId -> resolution TId) X F (v : value unit) fs out e out',
  encode_as_fields reg X F v fs out = (SErr e, out') /\ out' <> out.
Proof.
  exists nat, demo, xdemo, 9%nat, (unnamed_composite [vu128 7; vu128 8]), [(None, 0%nat); (None, 2%nat)], [9]. do 2 eexists. split; [reflexivity|discriminate].
Qed.
Print Assumptions C26_fields_refuted.

(** ** C31 *)
Theorem C31_encode_terminates : forall TId T (reg : TId -> resolution TId) X (v : value T) t, (forall t, Acc (fun t' t => wraps reg t t') t) ->
  exists F, forall out, fst (encode reg X F v t out) <> SHang.
Proof. intros TId T reg X v t WF. destruct (encode_total reg X WF v t) as [F0 H]. exists F0. apply H. lia. Qed.
Print Assumptions C31_encode_terminates.
(** On a set of wrapper types leading into itself no fuel is enough, whatever composite, bit sequence or (non-256-bit) primitive is encoded. *)
Theorem C31_encode_loops : forall TId T (reg : TId -> resolution TId) X (S : TId -> Prop), (forall t, S t -> exists t', wraps reg t t' /\ S t') ->
  forall (v : value T) t out F, all_nodes (fun d => match d with DPrim p => prim_wf p = true | _ => True end) v ->
  match vdef_of v with DVariant _ _ | DPrim (PU256 _) | DPrim (PI256 _) => False | _ => True end -> S t ->
  encode reg X F v t out = (SHang, out).
Proof. intros TId T reg X S HS v t out F W Hv Ht. eapply encode_loops; eauto. Qed.
Print Assumptions C31_encode_loops.
Example C31_loop : forall out F, encode demo xdemo F (named_composite [(s2l "next", unnamed_composite [])]) 15%nat out = (SHang, out).
Proof.
  intros out F. apply (C31_encode_loops nat unit demo xdemo (fun t => t = 15%nat)); [|repeat constructor|exact I|reflexivity].
  intros t ->. exists 15%nat. split; [|reflexivity]. apply W_one. eapply W_struct. reflexivity.
Qed.
Example C31_demo_wf : forall t, Acc (fun t' t => wraps demo_rt t t') t.
Proof.
  assert (B : forall t, ~ In t [11; 19; 27]%nat -> Acc (fun t' t => wraps demo_rt t t') t).
  { intros t Ht. constructor. intros u W. exfalso. apply Ht. inversion W as [? ? [? nm ? R|? ? R]|? ? R]; subst;
      do 31 (destruct t as [|t]; [try discriminate R; cbn; auto|]); discriminate. }
  intro t. destruct (in_dec Nat.eq_dec t [11; 19; 27]%nat) as [H|H]; [|apply B, H]. constructor. intros u W. apply B.
  intro Hu. destruct H as [<-|[<-|[<-|[]]]]; inversion W as [? ? [? nm ? R|? ? R]|? ? R]; try discriminate R; injection R; intros; subst; cbn in Hu; intuition discriminate.
Qed.

(** ** C32 *)
(** A struct with two or more fields, all named: a named composite encodes to it iff for every field of the struct, in the order of the
    struct, the (last) entry of that name encodes to the type of the field.  Order and extra entries do not matter; a missing name is an error.
    (A composite with a single entry is also tried without its outer layer; see C33.) *)
Theorem C32_fields_by_name : forall TId T (reg : TId -> resolution TId) X (l : list (str * value T)) ctx t nfs b,
  reg t = ResTy (TComposite (map (fun f => (Some (fst f), snd f)) nfs)) -> (2 <= length nfs)%nat -> length l <> 1%nat ->
  (encodes reg X (Val (DComposite (Named l)) ctx) t b <->
   exists xs, Forall2 (fun f x => exists l1 l2, l = l1 ++ (fst f, x) :: l2 /\ ~ In (fst f) (map fst l2)) nfs xs /\
     parts (fun t x b => encodes reg X x t b) (map snd nfs) xs b).
Proof.
  intros TId T reg X l ctx t nfs b R Hn Hl. split.
  - intro E. apply named_run with (nfs := nfs) in E as (xs & P & FA); eauto.
  - intros (xs & FA & P). apply (named_runs reg X l ctx t nfs b R); [destruct nfs; [cbn in Hn; lia|discriminate]|]. exists xs. auto.
Qed.
Print Assumptions C32_fields_by_name.
Theorem C32_order_does_not_matter : forall TId T (reg : TId -> resolution TId) X F (l1 l2 : list (str * value T)) ctx t nfs out,
  reg t = ResTy (TComposite (map (fun f => (Some (fst f), snd f)) nfs)) -> length nfs <> 1%nat -> Permutation l1 l2 -> NoDup (map fst l1) ->
  encode reg X F (Val (DComposite (Named l1)) ctx) t out = encode reg X F (Val (DComposite (Named l2)) ctx) t out.
Proof. intros TId T reg X F l1 l2 ctx t nfs out R Hn P ND. apply (named_perm reg X F l1 l2 ctx t nfs out R Hn P ND). Qed.
Print Assumptions C32_order_does_not_matter.
Theorem C32_missing_field : forall TId T (reg : TId -> resolution TId) X F (l : list (str * value T)) ctx t nfs out name,
  reg t = ResTy (TComposite (map (fun f => (Some (fst f), snd f)) nfs)) -> (2 <= length nfs)%nat -> length l <> 1%nat ->
  In name (map fst nfs) -> ~ In name (map fst l) -> fst (encode reg X F (Val (DComposite (Named l)) ctx) t out) <> SOk.
Proof.
  intros TId T reg X F l ctx t nfs out name R Hn Hl Hin Hout E. destruct (encode reg X F (Val (DComposite (Named l)) ctx) t out) as [s o] eqn:EE. cbn in E. subst s.
  apply encode_ok_encodes in EE as (b & _ & EE). apply (C32_fields_by_name TId T reg X l ctx t nfs b R Hn Hl) in EE as (xs & FA & _).
  apply in_map_iff in Hin as (f & <- & Hf). clear -FA Hf Hout. induction FA as [|g x nfs xs (l1 & l2 & -> & _) _ IH]; [destruct Hf|].
  destruct Hf as [->|Hf]; [|apply IH, Hf]. apply Hout. rewrite map_app. apply in_or_app. right. left. reflexivity.
Qed.
Print Assumptions C32_missing_field.
(** Enum variants with named fields: the same, without exceptions. *)
Theorem C32_variant_fields_by_name : forall TId T (reg : TId -> resolution TId) X name (l : list (str * value T)) ctx t l1 idx nfs l2 b, l <> [] -> nfs <> [] ->
  reg t = ResTy (TVariant (l1 ++ VInfo name idx (map (fun f => (Some (fst f), snd f)) nfs) :: l2)) -> ~ In name (map vi_name l1) ->
  (encodes reg X (Val (DVariant name (Named l)) ctx) t b <->
   exists xs b', b = idx :: b' /\ Forall2 (fun f x => exists l1 l2, l = l1 ++ (fst f, x) :: l2 /\ ~ In (fst f) (map fst l2)) nfs xs /\
     parts (fun t x b => encodes reg X x t b) (map snd nfs) xs b').
Proof.
  intros TId T reg X name l ctx t l1 idx nfs l2 b Hl Hn R N. rewrite (variant_iff reg X name (Named l) ctx t _ b R).
  assert (VT : vtarget (l1 ++ VInfo name idx (named_fields nfs) :: l2) name (VInfo name idx (named_fields nfs))) by (exists l1, l2; auto). split.
  - intros (v & b' & V & -> & FB). change (map (fun f => (Some (fst f), snd f)) nfs) with (named_fields nfs) in V. apply find_vtarget in V, VT. assert (v = VInfo name idx (named_fields nfs)) by congruence. subst v. cbn [vi_index vi_fields] in *.
    apply field_bytes_named in FB as (xs & P & FA); [|exact Hl|exact Hn]. exists xs, b'. auto.
  - intros (xs & b' & -> & FA & P). exists (VInfo name idx (named_fields nfs)), b'. split; [exact VT|]. split; [reflexivity|]. apply field_bytes_named; [exact Hl|exact Hn|].
    exists xs. auto.
Qed.
Print Assumptions C32_variant_fields_by_name.
Theorem C32_variant_order_does_not_matter : forall TId T (reg : TId -> resolution TId) X F name (l1 l2 : list (str * value T)) ctx t vs out,
  reg t = ResTy (TVariant vs) -> (forall v, In v vs -> vi_name v = name -> ~ In None (map fst (vi_fields v))) -> Permutation l1 l2 -> NoDup (map fst l1) ->
  encode reg X F (Val (DVariant name (Named l1)) ctx) t out = encode reg X F (Val (DVariant name (Named l2)) ctx) t out.
Proof.
  intros TId T reg X F name l1 l2 ctx t vs out R AN P ND. cbn [encode]. unfold encode_variant. destruct (skip_through reg F t) as [t1|] eqn:SK; [|reflexivity].
  assert (t1 = t) by (destruct F; [discriminate|]; cbn [skip_through] in SK; rewrite R in SK; congruence). subst t1. rewrite R.
  destruct (find _ vs) as [v|] eqn:FD; [|reflexivity]. pose proof (find_some _ _ FD) as [Hin Hn]. apply str_eqb_eq in Hn.
  assert (NF : exists nfs, vi_fields v = named_fields nfs).
  { specialize (AN v Hin Hn). clear -AN. induction (vi_fields v) as [|[[n|] u] fs IH]; [exists []; reflexivity| |].
    - destruct IH as [nfs ->]; [intro H; apply AN; right; exact H|]. exists ((n, u) :: nfs). reflexivity.
    - exfalso. apply AN. left. reflexivity. }
  destruct NF as [nfs ->]. change (composite_map (fun x => (x, encode reg X F x)) (Named l1)) with (items reg X F (Named l1)).
  change (composite_map (fun x => (x, encode reg X F x)) (Named l2)) with (items reg X F (Named l2)). rewrite !items_src.
  apply (fields_perm reg X F l1 l2 nfs _ P ND).
Qed.
Print Assumptions C32_variant_order_does_not_matter.
Example C32_permuted : encode demo xdemo 9 (named_composite [(s2l "b", unnamed_composite [vu128 1]); (s2l "z", vbool true); (s2l "a", vu128 7)]) 4%nat [] = (SOk, [7; 4; 1]) /\
  encode demo xdemo 9 (named_composite [(s2l "a", vu128 7); (s2l "b", unnamed_composite [vu128 1])]) 4%nat [] = (SOk, [7; 4; 1]) /\
  encode demo xdemo 9 (named_composite [(s2l "a", vu128 7); (s2l "c", unnamed_composite [vu128 1])]) 4%nat [] = (SErr XMissingField, []).
Proof. repeat split. Qed.
(** For a struct with one named field the order can matter: without the field the entries are tried as the field's own contents. *)
Theorem C32_single_field_refuted : exists TId (reg : TId -> resolution TId) X F (l1 l2 : list (str * value unit)) t n t' out b1 b2,
  reg t = ResTy (TComposite [(Some n, t')]) /\ Permutation l1 l2 /\ NoDup (map fst l1) /\
  encode reg X F (named_composite l1) t out = (SOk, b1) /\ encode reg X F (named_composite l2) t out = (SOk, b2) /\ b1 <> b2.
Proof.
  exists nat, (fun t => match t with 0%nat => ResTy (TPrim (PtU W8)) | 1%nat => ResTy (TSequence 0%nat) | _ => ResTy (TComposite [(nm "data", 1%nat)]) end), xdemo, 9%nat,
    [(s2l "x", vu128 1); (s2l "y", vu128 2)], [(s2l "y", vu128 2); (s2l "x", vu128 1)], 2%nat, (s2l "data"), 1%nat, [], [8; 1; 2], [8; 2; 1].
  split; [reflexivity|]. split; [apply perm_swap|]. split; [repeat constructor; cbn; intuition discriminate|]. repeat split. discriminate.
Qed.
Print Assumptions C32_single_field_refuted.

(** ** C33 *)
(** Chains of single-field structs, single-element tuples and arrays of length one are invisible to primitives and bit sequences: the result
    (success or failure) and the bytes are those of the innermost type. *)
Theorem C33_primitives_see_through : forall TId T (reg : TId -> resolution TId) X (d : vdef (value T)) ctx t u,
  match d with DBits _ => True | DPrim (PU256 _) | DPrim (PI256 _) => False | DPrim _ => True | _ => False end ->
  chain (wraps reg) t u -> (forall w, ~ wraps reg u w) ->
  exists F0, forall F, (F0 <= F)%nat -> forall out, encode reg X F (Val d ctx) t out = encode reg X F (Val d ctx) u out.
Proof. intros TId T reg X d ctx t u Hd Ch St. apply (leaf_through reg X d ctx t u); assumption. Qed.
Print Assumptions C33_primitives_see_through.
Theorem C33_u256_sees_through : forall TId T (reg : TId -> resolution TId) X p (ctx : T) t u, match p with PU256 _ | PI256 _ => True | _ => False end ->
  chain (wraps1 reg) t u -> (forall w, ~ wraps1 reg u w) ->
  exists F0, forall F, (F0 <= F)%nat -> forall out, encode reg X F (Val (DPrim p) ctx) t out = encode reg X F (Val (DPrim p) ctx) u out.
Proof. intros TId T reg X p ctx t u Hp Ch St. apply prim256_through; assumption. Qed.
Print Assumptions C33_u256_sees_through.
(** Unnamed composites with other than one value: the same successes and bytes. *)
Theorem C33_composites_see_through : forall TId T (reg : TId -> resolution TId) X (l : list (value T)) ctx t u, length l <> 1%nat ->
  chain (wraps reg) t u -> (forall w, ~ wraps reg u w) ->
  exists F0, forall F, (F0 <= F)%nat -> forall out out',
    encode reg X F (Val (DComposite (Unnamed l)) ctx) t out = (SOk, out') <-> encode reg X F (Val (DComposite (Unnamed l)) ctx) u out = (SOk, out').
Proof.
  intros TId T reg X l ctx t u HL Ch St. apply composite_through; [exact HL| |exact St]. clear -Ch. induction Ch as [t|t t' u W _ IH]; [constructor|]. eapply Ch_step; [|exact IH]. split; [exact W|exact I].
Qed.
Print Assumptions C33_composites_see_through.
(** Named composites: only wrappers without a field name are sure to be skipped. *)
Theorem C33_named_composites_see_through : forall TId T (reg : TId -> resolution TId) X (l : list (str * value T)) ctx t u, length l <> 1%nat ->
  chain (transparent reg) t u -> (forall w, ~ wraps reg u w) ->
  exists F0, forall F, (F0 <= F)%nat -> forall out out',
    encode reg X F (Val (DComposite (Named l)) ctx) t out = (SOk, out') <-> encode reg X F (Val (DComposite (Named l)) ctx) u out = (SOk, out').
Proof.
  intros TId T reg X l ctx t u HL Ch St. apply composite_through; [cbn [values]; rewrite map_length; exact HL| |exact St]. clear -Ch.
  induction Ch as [t|t t' u W _ IH]; [constructor|]. eapply Ch_step; [|exact IH]. split; [apply transparent_wraps, W|]. intros n E. inversion W; congruence.
Qed.
Print Assumptions C33_named_composites_see_through.
Theorem C33_variants_see_through : forall TId T (reg : TId -> resolution TId) X name (c : composite (value T)) ctx t u,
  chain (transparent reg) t u -> (forall w, ~ transparent reg u w) ->
  exists F0, forall F, (F0 <= F)%nat -> forall out, encode reg X F (Val (DVariant name c) ctx) t out = encode reg X F (Val (DVariant name c) ctx) u out.
Proof. intros. apply variant_through; assumption. Qed.
Print Assumptions C33_variants_see_through.
Example C33_chain : chain (wraps demo) 19%nat 1%nat /\ (forall w, ~ wraps demo 1%nat w) /\ chain (wraps demo) 12%nat 13%nat /\ forall w, ~ wraps demo 13%nat w.
Proof.
  split; [eapply Ch_step; [apply W_one; eapply W_struct; reflexivity|constructor]|]. split; [intros w H; inversion H as [? ? [? ? ? R|? ? R]|? ? R]; discriminate|].
  split; [|intros w H; inversion H as [? ? [? ? ? R|? ? R]|? ? R]; discriminate].
  eapply Ch_step; [apply W_one; eapply W_struct; reflexivity|]. eapply Ch_step; [apply W_one; eapply W_struct; reflexivity|constructor].
Qed.
Example C33_bytes : encode demo xdemo 9 (unnamed_composite [unnamed_composite [vu128 1; vu128 2]; unnamed_composite []]) 12%nat [] = (SOk, [8; 8; 1; 2; 0]).
Proof. reflexivity. Qed.

(** ** C34 *)
Theorem C34_bools_as_bits : forall TId T (reg : TId -> resolution TId) X (c : composite (value T)) ctx t st o b, reg t = ResTy (TBitSeq st o) ->
  (encodes reg X (Val (DComposite c) ctx) t b <->
   (exists bits, Forall2 is_bit (values c) bits /\ encodes reg X (Val (DBits bits) ctx) t b) \/ (exists x, values c = [x] /\ encodes reg X x t b)).
Proof.
  intros TId T reg X c ctx t st o b R. rewrite (bools_iff reg X c ctx t st o b R). split; (intros [(bits & FA & E)|H]; [left; exists bits; split; [exact FA|]|right; exact H]).
  - subst b. apply bits_runs, R.
  - eapply encodes_fun; [exact E|]. apply bits_runs, R.
Qed.
Print Assumptions C34_bools_as_bits.
(** The bytes of a bit sequence: compact length, then whole store words with zero padding. *)
Theorem C34_bit_bytes : forall TId T (reg : TId -> resolution TId) X bits (ctx : T) t st o b, reg t = ResTy (TBitSeq st o) -> N.of_nat (length bits) < 2 ^ 32 ->
  (encodes reg X (Val (DBits bits) ctx) t b <-> exists pre bs, b = pre ++ bs /\ compact_enc (N.of_nat (length bits)) pre /\ bits_payload true st o bits bs).
Proof.
  intros TId T reg X bits ctx t st o b R HL. pose proof (bits_runs reg X bits t st o ctx R) as E. unfold encode_bits in E. rewrite mod32 in E by exact HL. split.
  - intro H. pose proof (encodes_fun reg X _ _ _ _ H E) as ->. do 2 eexists. split; [reflexivity|]. split; [apply compact_small32, HL|]. exact (pack_payload true st o bits).
  - intros (pre & bs & -> & HC & HP). rewrite (compact_enc_fun _ _ HC), (payload_strict_fun _ _ _ _ HP). exact E.
Qed.
Print Assumptions C34_bit_bytes.
Example C34_mixed : encode demo xdemo 9 (unnamed_composite [vbool true; vu128 0; vi128 1]) 10%nat [] = (SOk, [12; 5]) /\
  encode demo xdemo 9 (bit_sequence [true; false; true]) 10%nat [] = (SOk, [12; 5]) /\
  encode demo xdemo 9 (unnamed_composite [vbool true; vu128 2]) 10%nat [] = (SErr XBadBit, []).
Proof. repeat split. Qed.

(** ** C35 *)
Theorem C35_arrays : forall TId T (reg : TId -> resolution TId) X (c : composite (value T)) ctx t t' n b, reg t = ResTy (TArray t' n) -> n <> 1 -> length (values c) <> 1%nat ->
  (encodes reg X (Val (DComposite c) ctx) t b <->
   N.of_nat (length (values c)) = n /\ parts (fun t x b => encodes reg X x t b) (repeat t' (length (values c))) (values c) b).
Proof.
  intros TId T reg X c ctx t t' n b R Hn HL. split; [apply array_run; assumption|]. intros [E P]. eapply array_runs; eauto.
Qed.
Print Assumptions C35_arrays.
Theorem C35_sequences : forall TId T (reg : TId -> resolution TId) X (c : composite (value T)) ctx t t' b, reg t = ResTy (TSequence t') ->
  N.of_nat (length (values c)) < 2 ^ 32 -> length (values c) <> 1%nat ->
  (encodes reg X (Val (DComposite c) ctx) t b <->
   exists pre bs, b = pre ++ bs /\ compact_enc (N.of_nat (length (values c))) pre /\
     parts (fun t x b => encodes reg X x t b) (repeat t' (length (values c))) (values c) bs).
Proof.
  intros TId T reg X c ctx t t' b R HN HL. split.
  - intro E. eapply seq_run in E as (bs & -> & P); eauto. do 2 eexists. split; [reflexivity|]. split; [apply compact_small32, HN|exact P].
  - intros (pre & bs & -> & HC & P). rewrite (compact_enc_fun _ _ HC). eapply seq_runs; eauto.
Qed.
Print Assumptions C35_sequences.
(** One-element composites too, as long as the element fits. *)
Theorem C35_single_element : forall TId T (reg : TId -> resolution TId) X (x : value T) ctx t t' b, encodes reg X x t' b ->
  (reg t = ResTy (TSequence t') -> encodes reg X (Val (DComposite (Unnamed [x])) ctx) t (4 :: b)) /\
  (reg t = ResTy (TArray t' 1) -> encodes reg X (Val (DComposite (Unnamed [x])) ctx) t b).
Proof.
  intros TId T reg X x ctx t t' b E. assert (P : parts (fun t x b => encodes reg X x t b) (repeat t' (length (values (Unnamed [x])))) (values (Unnamed [x])) b).
  { cbn. rewrite <- (app_nil_r b). constructor; [exact E|constructor]. }
  split; intro R.
  - apply (seq_runs reg X (Unnamed [x]) ctx t t' b R); [reflexivity|exact P].
  - eapply array_runs; [exact R| |exact P]. reflexivity.
Qed.
Print Assumptions C35_single_element.
Theorem C35_tuples : forall TId T (reg : TId -> resolution TId) X (c : composite (value T)) ctx t ts b, reg t = ResTy (TTuple ts) -> length ts <> 1%nat -> length (values c) <> 1%nat ->
  (encodes reg X (Val (DComposite c) ctx) t b <-> parts (fun t x b => encodes reg X x t b) ts (values c) b).
Proof.
  intros TId T reg X c ctx t ts b R Ht HL. rewrite (struct_iff reg X c ctx t (map (fun t => (None, t)) ts) b).
  - rewrite tuple_fields. reflexivity.
  - right. eauto.
  - rewrite map_length. exact Ht.
  - exact HL.
  - apply tuple_positional.
Qed.
Print Assumptions C35_tuples.
(** Structs, when either side has no names: by position. *)
Theorem C35_structs_by_position : forall TId T (reg : TId -> resolution TId) X (c : composite (value T)) ctx t fs b, reg t = ResTy (TComposite fs) -> length fs <> 1%nat ->
  length (values c) <> 1%nat -> match c with Unnamed _ => True | Named _ => Forall (fun f => fst f = None) fs end ->
  (encodes reg X (Val (DComposite c) ctx) t b <-> parts (fun t x b => encodes reg X x t b) (map snd fs) (values c) b).
Proof. intros TId T reg X c ctx t fs b R Hf HL HP. apply struct_iff; auto. Qed.
Print Assumptions C35_structs_by_position.
(** The number of values must be right. *)
Theorem C35_wrong_length : forall TId T (reg : TId -> resolution TId) X F (c : composite (value T)) ctx t n out,
  (exists t', reg t = ResTy (TArray t' n)) \/ (exists ts, reg t = ResTy (TTuple ts) /\ N.of_nat (length ts) = n) -> n <> 1 -> length (values c) <> 1%nat ->
  N.of_nat (length (values c)) <> n -> fst (encode reg X F (Val (DComposite c) ctx) t out) <> SOk.
Proof.
  intros TId T reg X F c ctx t n out R Hn HL HW E. destruct (encode reg X F (Val (DComposite c) ctx) t out) as [s o] eqn:EE. cbn in E. subst s.
  apply encode_ok_encodes in EE as (b & _ & EE). destruct R as [[t' R]|(ts & R & E)].
  - apply (C35_arrays _ _ reg X c ctx t t' n b R Hn HL) in EE as [EE _]. contradiction.
  - apply (C35_tuples _ _ reg X c ctx t ts b R) in EE; [|lia|exact HL]. apply parts_length in EE. lia.
Qed.
Print Assumptions C35_wrong_length.
Example C35_array : encode demo xdemo 9 (unnamed_composite [vu128 1; vu128 2]) 8%nat [] = (SOk, [1; 2]) /\
  encode demo xdemo 9 (unnamed_composite [vu128 1; vu128 2; vu128 3]) 8%nat [] = (SErr XWrongLength, []) /\
  encode demo xdemo 9 (unnamed_composite [vu128 1; vu128 2]) 5%nat [] = (SOk, [8; 1; 2]).
Proof. repeat split. Qed.

(** ** C37 *)
Theorem C37_unsigned_targets : forall TId T (reg : TId -> resolution TId) X (ctx : T) z p t w b,
  (exists n, p = PU128 n /\ z = Z.of_N n) \/ p = PI128 z -> reg t = ResTy (TPrim (PtU w)) ->
  (encodes reg X (Val (DPrim p) ctx) t b <-> (0 <= z < 2 ^ Z.of_N (int_bits w))%Z /\ le_enc (int_size w) (Z.to_N z) b).
Proof. intros TId T reg X ctx z p t w b Hp R. apply uint_iff; [|exact R]. destruct Hp as [(n & -> & ->)| ->]; [left; exists n; split; reflexivity|right; reflexivity]. Qed.
Print Assumptions C37_unsigned_targets.
(** Signed targets: two's complement. *)
Theorem C37_signed_targets : forall TId T (reg : TId -> resolution TId) X (ctx : T) z p t w b,
  (exists n, p = PU128 n /\ z = Z.of_N n) \/ p = PI128 z -> reg t = ResTy (TPrim (PtI w)) ->
  (encodes reg X (Val (DPrim p) ctx) t b <->
   (- 2 ^ (Z.of_N (int_bits w) - 1) <= z < 2 ^ (Z.of_N (int_bits w) - 1))%Z /\ le_enc (int_size w) (Z.to_N (z mod 2 ^ Z.of_N (int_bits w))) b).
Proof. intros TId T reg X ctx z p t w b Hp R. apply int_iff; [|exact R]. destruct Hp as [(n & -> & ->)| ->]; [left; exists n; split; reflexivity|right; reflexivity]. Qed.
Print Assumptions C37_signed_targets.
(** Nothing else takes a number: a bool, a string, an enum, a sequence ... *)
Theorem C37_other_targets : forall TId T (reg : TId -> resolution TId) X (ctx : T) z p t b, (exists n, p = PU128 n /\ z = Z.of_N n) \/ p = PI128 z ->
  encodes reg X (Val (DPrim p) ctx) t b ->
  exists u, chain (wraps reg) t u /\
   ((exists w, reg u = ResTy (TPrim (PtU w)) \/ reg u = ResTy (TPrim (PtI w))) \/
    (exists t' u' w, reg u = ResTy (TCompact t') /\ chain (wraps reg) t' u' /\ reg u' = ResTy (TPrim (PtU w)))).
Proof.
  intros TId T reg X ctx z p t b Hp E. eapply (number_targets reg X _ z t b); [|exact E]. destruct Hp as [(n & -> & ->)| ->]; [left; exists n; split; reflexivity|right; reflexivity].
Qed.
Print Assumptions C37_other_targets.
Example C37_ranges : encode demo xdemo 9 (vu128 255) 0%nat [] = (SOk, [255]) /\ encode demo xdemo 9 (vu128 256) 0%nat [] = (SErr XOutOfRange, []) /\
  encode demo xdemo 9 (vi128 (-1)) 0%nat [] = (SErr XOutOfRange, []) /\ encode demo xdemo 9 (vi128 (-2)) 17%nat [] = (SOk, [254; 255]) /\
  encode demo xdemo 9 (vu128 32768) 17%nat [] = (SErr XOutOfRange, []).
Proof. repeat split. Qed.

(** ** C38 *)
Theorem C38_compact_targets : forall TId T (reg : TId -> resolution TId) X (ctx : T) z p t t' u w b,
  (exists n, p = PU128 n /\ z = Z.of_N n) \/ p = PI128 z -> reg t = ResTy (TCompact t') -> chain (wraps reg) t' u -> reg u = ResTy (TPrim (PtU w)) ->
  (encodes reg X (Val (DPrim p) ctx) t b <-> (0 <= z < 2 ^ Z.of_N (int_bits w))%Z /\ compact_enc (Z.to_N z) b).
Proof.
  intros TId T reg X ctx z p t t' u w b Hp R Ch Ru. apply (compact_iff reg X (Val (DPrim p) ctx) z t t' u w b); try assumption. destruct Hp as [(n & -> & ->)| ->]; [left; exists n; split; reflexivity|right; reflexivity].
Qed.
Print Assumptions C38_compact_targets.
Theorem C38_compact_roundtrip : forall TId (reg : TId -> resolution TId) X n t u w b, reg t = ResTy (TCompact u) -> reg u = ResTy (TPrim (PtU w)) ->
  encodes reg X (vu128 n) t b -> decodes reg X (fun _ => tt) t b (vu128 n) [].
Proof.
  intros TId reg X n t u w b R Ru E. apply (C38_compact_targets TId unit reg X tt (Z.of_N n) (PU128 n) t u u w b) in E as [HR HC]; try assumption; [|left; eauto|constructor].
  rewrite N2Z.id in HC. assert (EE : enc reg (x_maxbits X) 32 (fun _ => tt) PU256 true false t (vu128 n) b).
  { eapply E_compact; [exact R|]. eapply (E_compact_uint reg _ _ (fun _ => tt)); [exact Ru| |exact HC]. apply N2Z.inj_lt. rewrite N2Z.inj_pow. apply HR. }
  apply enc_at_x in EE. apply (decode_complete reg X (fun _ => tt) true) in EE as [f0 H]. exists f0. specialize (H f0 (le_n _) []). rewrite app_nil_r in H. exact H.
Qed.
Print Assumptions C38_compact_roundtrip.
Example C38_boundaries : encode demo xdemo 9 (vu128 63) 7%nat [] = (SOk, [252]) /\ encode demo xdemo 9 (vu128 64) 7%nat [] = (SOk, [1; 1]) /\
  encode demo xdemo 9 (vu128 16384) 7%nat [] = (SOk, [2; 0; 1; 0]) /\ encode demo xdemo 9 (vu128 1073741824) 7%nat [] = (SOk, [3; 0; 0; 0; 64]) /\
  encode demo xdemo 9 (vu128 4294967296) 7%nat [] = (SErr XOutOfRange, []).
Proof. repeat split. Qed.
