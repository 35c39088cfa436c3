(** * Props_Cost: C63 (how much work encoding does) *)
From Verif Require Import Base Value ValueFacts Chars Parse Spec_Grammar Fmt Spec_Fmt Spec_Layout Registry Spec_Scale Scale ScaleFacts Decode DecodeFacts DecodeMore Encode EncodeFacts Spec_Encode LenFacts EncodeComplete EncodeWrap
  EncodeCost Spec_Cost EncodeLinear CostFacts Demo Props_Fmt Props_Layout Props_Decode Props_Encode.
Open Scope N_scope.

(** [encode_c] is the encoder of the other theorems together with the number of times [encode_as_type_to] is called on
    the value or a value inside it. *)
Theorem C63_same_encoder : forall TId T (reg : TId -> resolution TId) X F (v : value T) t out,
  fst (encode_c reg X F v t out) = encode reg X F v t out.
Proof. intros. apply erase_encode. Qed.
Print Assumptions C63_same_encoder.

(** Encoding what was decoded, at the type it was decoded from, visits every value in it exactly once. *)
Theorem C63_decoded_values_once : forall TId C (reg : TId -> resolution TId) X (ctxf : TId -> C) t v bs r, rt_ok reg X -> no_nested_lists reg ->
  is_bytes bs -> decodes reg X ctxf t bs v r -> (x_len64 X = true -> short v) ->
  exists F0, forall F, (F0 <= F)%nat -> forall out, snd (encode_c reg X F v t out) = nodes v.
Proof.
  intros TId C reg X ctxf t v bs r RT NL HB D SV. apply C21_decode_iff_encoding in D as (pre & -> & E); [|exact HB].
  apply (enc_at_32 _ _ _ _ _ _ _ _ _ SV) in E. apply (proj1 (strictify reg _ _ ctxf)) in E as (pre' & E & L). apply (encode_linear reg X ctxf RT NL) in E as [F0 H].
  exists F0. intros F HF out. now rewrite H.
Qed.
Print Assumptions C63_decoded_values_once.

(** For every value and type the work is at most exponential in how deep the value is, and linear in its size. *)
Theorem C63_upper_bound : forall TId T (reg : TId -> resolution TId) X F (v : value T) t out, names_distinct reg ->
  snd (encode_c reg X F v t out) <= nodes v * 3 ^ depth v.
Proof.
  intros TId T reg X F v t out [N1 N2]. etransitivity; [|apply weight_le]. apply calls_le.
  - intros t' fs R. apply fields_keys. eapply N1, R.
  - intros t' vs w R HI. apply fields_keys. eapply N2; eassumption.
Qed.
Print Assumptions C63_upper_bound.

(** The exponential does occur: a text of 2n + 6 characters, n + 1 pairs of parentheses around two numbers, makes 2^(n+1) + 1
    calls when it is encoded to Vec<u8> (which succeeds), and 2^(n+1) - 1 calls when it is refused as a u8. *)
Definition nested_text (n : nat) : str := repeat c_lpar n ++ s2l "(1, 2)" ++ repeat c_rpar n.
Lemma nested_display U n : display U false (nest n) = Some (nested_text n).
Proof.
  rewrite (proj1 (C59_display unit U (nest n))). induction n as [|n IH]; [reflexivity|]. cbn [nest]. unfold unnamed_composite.
  cbn [one_line map first_answer]. rewrite IH. cbn [every Spec_Layout.omap ctx_prefix app]. unfold round, join, nested_text. f_equal.
  change (s2l "(" ++ (repeat c_lpar n ++ s2l "(1, 2)" ++ repeat c_rpar n) ++ [c_rpar] = c_lpar :: repeat c_lpar n ++ s2l "(1, 2)" ++ repeat c_rpar (S n)).
  cbn [app]. change (s2l "(") with [c_lpar]. cbn [app]. f_equal. rewrite <- !app_assoc. do 2 f_equal. rewrite <- repeat_cons. reflexivity.
Qed.
Lemma nested_parses U n : unicode_ok U -> from_str U (nested_text n) = (Ok (nest n), []).
Proof.
  intro HU. destruct (C04_display_roundtrip U false (nest n) HU) as (t & H1 & H2).
  - induction n as [|n IH]; [reflexivity|]. cbn [nest]. unfold unnamed_composite. cbn [text_ok forallb]. now rewrite IH.
  - induction n as [|n IH]; [reflexivity|]. cbn [nest]. unfold unnamed_composite. cbn [unsigned_form map]. now rewrite IH.
  - rewrite nested_display in H1. injection H1 as <-. exact H2.
Qed.
Theorem C63_polynomial_refuted : forall TId (reg : TId -> resolution TId) X U t u, unicode_ok U ->
  reg t = ResTy (TSequence u) -> reg u = ResTy (TPrim (PtU W8)) -> forall n F, (1 <= F)%nat ->
  exists text v, length text = (2 * n + 6)%nat /\ from_str U text = (Ok v, []) /\ nodes v = N.of_nat n + 3 /\
    encode_c reg X F v t [] = ((SOk, [8; 1; 2]), 2 ^ (N.of_nat n + 1) + 1) /\
    exists e, encode_c reg X F v u [] = ((SErr e, []), 2 ^ (N.of_nat n + 1) - 1).
Proof.
  intros TId reg X U t u HU R R' n F HF. exists (nested_text n), (nest n).
  split; [unfold nested_text; rewrite !app_length, !repeat_length; cbn [length]; change (length (s2l "(1, 2)")) with 6%nat; lia|].
  split; [apply nested_parses, HU|]. split; [apply nest_nodes|]. split; [exact (nest_seq reg X F HF t u R R' n [])|].
  exact (nest_prim reg X F HF u _ R' n []).
Qed.
Print Assumptions C63_polynomial_refuted.

(** Non-vacuity. *)
Ltac fields_tac := first [left; cbn; intuition (subst; reflexivity)
  |right; eexists [_]; split; [reflexivity|repeat constructor; cbn; intuition discriminate]
  |right; eexists [_; _]; split; [reflexivity|repeat constructor; cbn; intuition discriminate]].
Example C63_demo_names : names_distinct demo.
Proof.
  split.
  - intros t fs R. do 31 (destruct t as [|t]; [first [discriminate R|injection R as <-; fields_tac]|]). discriminate.
  - intros t vs v R HI. do 31 (destruct t as [|t]; [first [discriminate R|injection R as <-; cbn in HI; destruct HI as [<-|[<-|[]]]; cbn [vi_fields]; fields_tac]|]). discriminate.
Qed.
Example C63_counts : snd (encode_c demo xdemo 9 (named_composite [(s2l "b", unnamed_composite [vu128 1; vu128 2]); (s2l "a", vu128 7)]) 4%nat []) = 5 /\
  nodes (named_composite [(s2l "b", unnamed_composite [vu128 1; vu128 2]); (s2l "a", vu128 7)]) = 5 /\
  encode_c demo xdemo 9 (nest 10) 5%nat [] = ((SOk, [8; 1; 2]), 2049) /\ demo 5%nat = ResTy (TSequence 0%nat).
Proof. repeat split; vm_compute; reflexivity. Qed.
Example C63_demo_no_nested : no_nested_lists demo_rt.
Proof. intros t1 t2 t3 u e H1 H2. apply demo_transparent in H1 as [-> ->]. apply demo_transparent in H2 as [H2 _]. discriminate. Qed.
