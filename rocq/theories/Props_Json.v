(** * Props_Json: C109 SCALE data as JSON *)
From Verif Require Import Base Value Spec_Value ValueFacts Spec_Fmt Registry Spec_Scale Spec_Decode Spec_Encode Serde SerdeFacts Spec_Serde Spec_Parts Spec_Foreign ForeignFacts
  Scale ScaleFacts BitsFacts LenFacts Decode DecodeFacts DecodeMore Encode EncodeFacts EncodeSound EncodeMore EncodeWrap EncodeText Spec_Json JsonFacts.
From Verif Require Import Demo Props_Decode Props_Encode Props_Foreign.
Local Open Scope N_scope.

(** ** What is read back *)
(** Every value without the reserved key at the start of its fields can be written as JSON.  If its integers are in the range of JSON's, the text is read as [json_read v]; *)
Theorem C109_read : forall (T U : Type) (v : value T), all_nodes name_free v ->
  exists j, json_of v j /\ (all_nodes number_fits v -> de TyValue (SrcDoc (T := U) j) = Ok (XValue (json_read v))).
Proof.
  intros T U v NF. destruct (good_any v NF) as (d & G1 & G2 & G3 & _). exists (through_json d). split; [exists d; auto|]. intro HN. apply C75_read_iff; [exact G2|exact (G3 HN)].
Qed.
Print Assumptions C109_read.

(** if one integer is not, nothing is read. *)
Theorem C109_number_refused : forall (T U : Type) (v : value T) j path p ctx z, all_nodes name_free v -> json_of v j ->
  node_at v path = Some (Val (DPrim p) ctx) -> number_in (Val (DPrim p) ctx) = Some z -> ~ (- 2 ^ 63 <= z < 2 ^ 64)%Z ->
  exists e, de TyValue (SrcDoc (T := U) j) = Err e.
Proof.
  intros T U v j path p ctx z NF (d & E & ->) Hp Hz HB. destruct (good_any v NF) as (d' & G1 & G2 & _ & G4). assert (d' = d) as -> by congruence.
  apply C75_float_refuted; [exact G2|]. left. eapply G4; [exact Hp|]. destruct p as [b|c|s|n|y|b|b]; cbn [number_in] in Hz; try discriminate; injection Hz as <-.
  - left. exists n. split; [reflexivity|lia].
  - right. exists y. split; [reflexivity|exact HB].
Qed.
Print Assumptions C109_number_refused.

(** ** Encoding what is read back *)
(** Without variants, characters and 256-bit integers, what is read back encodes like the value, at every type. *)
Theorem C109_encodes_alike : forall (T U : Type) (v : value T) j w, all_nodes json_kind v -> all_nodes name_free v -> all_nodes number_fits v ->
  json_of v j -> de TyValue (SrcDoc (T := U) j) = Ok (XValue w) ->
  w = unsigned_form v /\ forall TId (reg : TId -> resolution TId) X F t out, encode reg X F w t out = encode reg X F v t out.
Proof.
  intros T U v j w HK HF HN (d & E & ->) R. destruct (C109_read T U v HF) as (j' & (d' & E' & ->) & R'). assert (d' = d) as -> by congruence.
  specialize (R' HN). assert (w = json_read v) as -> by congruence. rewrite (read_unsigned v HK). split; [reflexivity|]. intros. apply encode_unsigned.
Qed.
Print Assumptions C109_encodes_alike.

Lemma all_nodes_and {T} (P Q R : vdef (value T) -> Prop) v : all_nodes (fun d => P d /\ Q d /\ R d) v -> all_nodes P v /\ all_nodes Q v /\ all_nodes R v.
Proof.
  induction v as [d ctx IH] using value_ind'. intro H. inversion H as [? ? K KC]; subst. destruct K as (K1 & K2 & K3). rewrite Forall_forall in *.
  split; [|split]; constructor; try assumption; rewrite Forall_forall; intros x Hx; destruct (IH x Hx (KC x Hx)) as (A1 & A2 & A3); assumption.
Qed.

Lemma json_types_nodes {TId C} (reg : TId -> resolution TId) mb lb (ctxf : TId -> C) strict : json_types reg ->
  (forall c t v b, enc reg mb lb ctxf PU256 strict c t v b -> all_nodes (fun d => json_kind d /\ name_free d /\ number_fits d) v) /\
  (forall c ts vs b, encs reg mb lb ctxf PU256 strict c ts vs b -> Forall (all_nodes (fun d => json_kind d /\ name_free d /\ number_fits d)) vs).
Proof.
  intro JT. apply enc_encs_ind.
  - intros t p x bs R HP. specialize (JT t). rewrite R in JT. constructor; [|constructor].
    inversion HP; subst; try contradiction; cbn [json_kind name_free number_fits]; auto.
    + repeat split; auto. match goal with H : le_enc _ ?m _ |- ?m < _ => apply le_enc_iff in H as [_ H]; eapply N.lt_le_trans; [exact H|] end. destruct w; try contradiction; vm_compute; discriminate.
    + assert (B : (2 ^ (Z.of_N (int_bits w) - 1) <= 2 ^ 63)%Z) by (destruct w; try contradiction; vm_compute; discriminate).
      repeat split; auto; lia.
  - intros t w n bs R Hn _. specialize (JT t). rewrite R in JT. constructor; [|constructor]. cbn [json_kind name_free number_fits]. repeat split; auto.
    eapply N.lt_le_trans; [exact Hn|]. destruct w; try contradiction; vm_compute; discriminate.
  - intros; assumption.
  - intros c t fs vs cmp bs R _ _ IH Sh. specialize (JT t). rewrite R in JT. constructor; [|inversion Sh; subst; exact IH].
    inversion Sh as [kvs Hne E1 E2 E3|]; subst; [|cbn; auto]. destruct kvs as [|[k x] kvs]; [congruence|]. destruct fs as [|[n t'] fs]; [discriminate|]. cbn [map fst snd] in *. injection E1 as E1 _. subst n. cbn. auto.
  - intros c t ts vs bs R _ _ IH. constructor; [cbn; auto|exact IH].
  - intros t l1 name idx fs l2 vs cmp bs R. specialize (JT t). rewrite R in JT. contradiction.
  - intros t t' vs pre bs R _ _ _ IH. constructor; [cbn; auto|exact IH].
  - intros t t' n vs bs R _ _ IH. constructor; [cbn; auto|exact IH].
  - intros. constructor; [cbn; auto|constructor].
  - constructor.
  - intros. constructor; assumption.
Qed.

(** SCALE bytes to value to JSON to value to SCALE bytes: the bytes. *)
Theorem C109_scale_json_scale : forall TId C U (reg : TId -> resolution TId) X (ctxf : TId -> C) t bs v r, rt_ok reg X -> json_types reg -> (forall t st o, reg t <> ResTy (TBitSeq st o)) ->
  is_bytes bs -> decodes reg X ctxf t bs v r -> (x_len64 X = true -> short v) ->
  exists j w pre, json_of v j /\ de TyValue (SrcDoc (T := U) j) = Ok (XValue w) /\ bs = pre ++ r /\ encodes reg X w t pre.
Proof.
  intros TId C U reg X ctxf t bs v r RT JT NB HB D SV. destruct (C24_encode_inverts_decode TId C reg X ctxf t v bs r RT NB HB D SV) as (pre & -> & [F E]).
  apply C21_decode_iff_encoding in D as (b & _ & E'); [|exact HB]. apply (proj1 (json_types_nodes reg _ _ _ _ JT)) in E' as A. apply all_nodes_and in A as (HK & HF & HN).
  destruct (C109_read C U v HF) as (j & J & R). specialize (R HN). exists j, (json_read v), pre. split; [exact J|]. split; [exact R|]. split; [reflexivity|].
  exists F. intro out. rewrite <- E. exact (proj2 (C109_encodes_alike C U v j _ HK HF HN J R) _ _ _ _ _ _).
Qed.
Print Assumptions C109_scale_json_scale.

(** With bit sequences: bytes of the same length that decode to the same value. *)
Theorem C109_scale_json_scale_bits : forall TId C U (reg : TId -> resolution TId) X (ctxf : TId -> C) t bs v r, rt_ok reg X -> json_types reg ->
  is_bytes bs -> decodes reg X ctxf t bs v r -> (x_len64 X = true -> short v) ->
  exists j w pre pre', json_of v j /\ de TyValue (SrcDoc (T := U) j) = Ok (XValue w) /\ bs = pre ++ r /\ encodes reg X w t pre' /\ length pre' = length pre /\ decodes reg X ctxf t pre' v [].
Proof.
  intros TId C U reg X ctxf t bs v r RT JT HB D SV. destruct (C24_reencode_stable TId C reg X ctxf t v bs r RT HB D SV) as (pre & pre' & -> & [F E] & L & D').
  apply C21_decode_iff_encoding in D as (b & _ & E'); [|exact HB]. apply (proj1 (json_types_nodes reg _ _ _ _ JT)) in E' as A. apply all_nodes_and in A as (HK & HF & HN).
  destruct (C109_read C U v HF) as (j & J & R). specialize (R HN). exists j, (json_read v), pre, pre'. split; [exact J|]. split; [exact R|]. split; [reflexivity|]. split; [|auto].
  exists F. intro out. rewrite <- E. exact (proj2 (C109_encodes_alike C U v j _ HK HF HN J R) _ _ _ _ _ _).
Qed.
Print Assumptions C109_scale_json_scale_bits.

(** ** Enums *)
(** Read as a [Variant], the JSON of a variant gives its name and (as above) its fields; put together, they encode like the variant. *)
Theorem C109_variant : forall (T U : Type) n (c : composite (value T)) ctx j, Forall (all_nodes json_kind) (values c) -> all_nodes name_free (Val (DVariant n c) ctx) ->
  all_nodes number_fits (Val (DVariant n c) ctx) -> json_of (Val (DVariant n c) ctx) j ->
  exists c', de TyVariant (SrcDoc (T := U) j) = Ok (XVariant n c') /\
    forall TId (reg : TId -> resolution TId) X F t out, encode reg X F (Val (DVariant n c') tt) t out = encode reg X F (Val (DVariant n c) ctx) t out.
Proof.
  intros T U n c ctx j HK HF HN (d & E & ->). destruct (good_any _ HF) as (d1 & G1 & G2 & G3 & _). assert (d1 = d) as -> by congruence. specialize (G3 HN).
  exists (composite_map json_read c). split.
  - apply C75_variant_iff; [exact G2|]. cbn [json_read] in G3.
    inversion HF as [? ? K KC]; subst. cbn [children] in KC.
    assert (HI : Forall (fun v => exists d, good v d) (values c)) by (rewrite Forall_forall in *; intros x Hx; apply good_any; apply KC; exact Hx).
    destruct (good_composite c HI) as (dc & C1 & _ & C3 & _).
    assert (ED : d = FMap [(s2l "name", FStr n); (s2l "values", dc)]).
    { cbn [ser_value] in E. unfold ser_variant_with in E. change (ser_composite_with ser_value c) with (ser_composite c) in E. cbn [to_doc] in E. rewrite C1 in E. injection E as <-. reflexivity. }
    subst d. cbn [through_json map fst snd].
    assert (MC : means_fields (through_json dc) (composite_map json_read c)) by (apply C3; inversion HN; subst; assumption).
    eapply (MV_map _ n _ (FStr n) (through_json dc)).
    + constructor; [left; split; [reflexivity|eexists; apply TX_str]|]. constructor; [right; split; [reflexivity|eexists; exact MC]|constructor].
    + exists [], [(s2l "values", through_json dc)]. split; [reflexivity|]. cbn [map fst]. intros [HX|[]]. discriminate HX.
    + apply TX_str.
    + exists [(s2l "name", FStr n)], []. split; [reflexivity|]. intros [].
    + exact MC.
  - intros TId reg X F t out. rewrite <- (encode_unsigned reg X F (Val (DVariant n c) ctx)). f_equal. cbn [unsigned_form].
    rewrite Forall_forall in HK. destruct c as [l|l]; cbn [composite_map values] in *.
    + match goal with |- Val (DVariant _ (Named ?a)) _ = Val (DVariant _ (Named ?b)) _ => cut (a = b); [intros ->; reflexivity|] end.
      apply map_ext_in. intros [k x] I. cbn [fst snd]. f_equal. apply read_unsigned, HK. apply (in_map snd) in I. exact I.
    + match goal with |- Val (DVariant _ (Unnamed ?a)) _ = Val (DVariant _ (Unnamed ?b)) _ => cut (a = b); [intros ->; reflexivity|] end.
      apply map_ext_in. intros x I. apply read_unsigned, HK. exact I.
Qed.
Print Assumptions C109_variant.

(** Read as a [Value] it is a map, and the map does not encode at the enum. *)
Theorem C109_enums_refuted : forall (T : Type) TId (reg : TId -> resolution TId) X F t out vs n (c : composite (value T)) ctx, reg t = ResTy (TVariant vs) ->
  fst (encode reg X F (json_read (Val (DVariant n c) ctx)) t out) <> SOk.
Proof.
  intros T TId reg X F t out vs n c ctx R H. cbn [json_read named_composite encode] in H. unfold named_composite in H. cbn [encode composite_map map fst snd] in H.
  unfold encode_composite, do_encode in H. rewrite R in H. cbn [values map snd fst] in H.
  destruct (find_single reg F t false) as [[t' df]|] eqn:FS; [|cbn in H; discriminate H].
  destruct F as [|F]; [cbn in FS; discriminate FS|]. cbn [find_single] in FS. rewrite R in FS. injection FS as <- <-. cbn in H. discriminate H.
Qed.
Print Assumptions C109_enums_refuted.

(** A character comes back as a string, which does not encode as a character. *)
Theorem C109_chars_refuted : forall (T : Type) TId (reg : TId -> resolution TId) X F t out ch (ctx : T), reg t = ResTy (TPrim PtChar) ->
  fst (encode reg X F (json_read (Val (DPrim (PChar ch)) ctx)) t out) <> SOk.
Proof.
  intros T TId reg X F t out ch ctx R H. cbn [json_read vstring encode] in H. unfold vstring, primitive in H. cbn [encode encode_primitive] in H. unfold encode_str, encode_leaf in H.
  destruct (find_single reg F t false) as [[t' df]|] eqn:FS; [|cbn in H; discriminate H].
  destruct F as [|F]; [cbn in FS; discriminate FS|]. cbn [find_single] in FS. rewrite R in FS. injection FS as <- <-. rewrite R in H. cbn in H. discriminate H.
Qed.
Print Assumptions C109_chars_refuted.

(** ** Non-vacuity *)
Definition json_reg (t : nat) : resolution nat :=
  match t with
  | 0%nat => ResTy (TComposite [(Some (s2l "id"), 1%nat); (Some (s2l "who"), 2%nat); (Some (s2l "deltas"), 3%nat)])
  | 1%nat => ResTy (TCompact 4%nat) | 2%nat => ResTy (TPrim PtStr) | 3%nat => ResTy (TSequence 5%nat) | 4%nat => ResTy (TPrim (PtU W32)) | 5%nat => ResTy (TPrim (PtI W16))
  | _ => ResNotFound
  end.
Example C109_example : json_types json_reg /\
  exists v, decodes json_reg xdemo (fun t => t) 0%nat [4; 8; 104; 105; 8; 255; 255; 5; 0; 9] v [9] /\
    json_of v (FMap [(s2l "id", FInt false 64 1); (s2l "who", FStr (s2l "hi")); (s2l "deltas", FSeq [FInt true 64 (-1); FInt false 64 5])]) /\
    json_read v = named_composite [(s2l "id", vu128 1); (s2l "who", vstring (s2l "hi")); (s2l "deltas", unnamed_composite [vi128 (-1); vu128 5])].
Proof.
  split; [intro t; do 6 (destruct t as [|t]; [solve [exact I|vm_compute; discriminate]|]); exact I|].
  eexists. split; [exists 4%nat; reflexivity|]. split; [eexists; split; reflexivity|reflexivity].
Qed.
Example C109_enum_example : all_nodes name_free (named_variant (s2l "Set") [(s2l "to", vi128 (-5))]) /\
  json_of (named_variant (s2l "Set") [(s2l "to", vi128 (-5))]) (FMap [(s2l "name", FStr (s2l "Set")); (s2l "values", FMap [(s2l "to", FInt true 64 (-5))])]).
Proof. split; [constructor; [vm_compute; discriminate|constructor; [constructor; [exact I|constructor]|constructor]]|]. eexists. split; reflexivity. Qed.
Example C109_number_example : number_in (vu128 (2 ^ 64)) = Some (2 ^ 64)%Z /\ json_of (vu128 (2 ^ 64)) FFloat /\ ~ (- 2 ^ 63 <= 2 ^ 64 < 2 ^ 64)%Z.
Proof. split; [reflexivity|]. split; [eexists; split; reflexivity|lia]. Qed.
