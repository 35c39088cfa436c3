(** * Props_DecodeErrors: C91 (the kind of a decode error is true, and whatever is wrong is reported) *)
From Verif Require Import Base Value Registry Spec_Scale Scale ScaleFacts Decode DecodeFacts Spec_DecodeErrors DecodeErrFacts Trace Spec_Trace TraceFacts TraceErrFacts Demo.
Open Scope N_scope.

(** If decoding fails, then reading the input one comes, past items that are all present and well formed, to an item where
    what the error says is the case; see [reaches] and [wrong].  ([EHang] marks a nesting deeper than the fuel.) *)
Theorem C91_true : forall TId C (reg : TId -> resolution TId) X (ctxf : TId -> C) fuel t bs e, is_bytes bs ->
  decode_as_type reg X ctxf fuel t bs = Err e -> e <> EHang ->
  exists c' t' bs', reaches reg (x_maxbits X) (x_len X) ctxf false t bs c' t' bs' /\ wrong reg (x_maxbits X) (x_len X) c' t' bs' e.
Proof. intros TId C reg X ctxf fuel t bs e HB H HE. exact (decode_err_true reg X ctxf fuel false t bs e HB H HE). Qed.
Print Assumptions C91_true.

(** Conversely, whatever is wrong where one comes to is reported, as that error, at any sufficient fuel. *)
Theorem C91_reported : forall TId C (reg : TId -> resolution TId) X (ctxf : TId -> C) t bs c' t' bs' e, is_bytes bs ->
  reaches reg (x_maxbits X) (x_len X) ctxf false t bs c' t' bs' -> wrong reg (x_maxbits X) (x_len X) c' t' bs' e ->
  exists f0, forall fuel, (f0 <= fuel)%nat -> decode_as_type reg X ctxf fuel t bs = Err e.
Proof. intros TId C reg X ctxf t bs c' t' bs' e HB G W. exact (decode_err_reported reg X ctxf false t bs c' t' bs' e G HB W). Qed.
Print Assumptions C91_reported.

(** So there is one thing wrong with an input at most, and nothing with one that decodes. *)
Theorem C91_one : forall TId C (reg : TId -> resolution TId) X (ctxf : TId -> C) t bs, is_bytes bs ->
  (forall c1 t1 bs1 e1 c2 t2 bs2 e2,
    reaches reg (x_maxbits X) (x_len X) ctxf false t bs c1 t1 bs1 -> wrong reg (x_maxbits X) (x_len X) c1 t1 bs1 e1 ->
    reaches reg (x_maxbits X) (x_len X) ctxf false t bs c2 t2 bs2 -> wrong reg (x_maxbits X) (x_len X) c2 t2 bs2 e2 -> e1 = e2) /\
  (forall fuel x, decode_as_type reg X ctxf fuel t bs = Ok x -> forall c' t' bs' e,
    reaches reg (x_maxbits X) (x_len X) ctxf false t bs c' t' bs' -> ~ wrong reg (x_maxbits X) (x_len X) c' t' bs' e).
Proof.
  intros TId C reg X ctxf t bs HB. split.
  - intros c1 t1 bs1 e1 c2 t2 bs2 e2 G1 W1 G2 W2.
    destruct (C91_reported _ _ reg X ctxf t bs c1 t1 bs1 e1 HB G1 W1) as [f1 H1]. destruct (C91_reported _ _ reg X ctxf t bs c2 t2 bs2 e2 HB G2 W2) as [f2 H2].
    specialize (H1 (Nat.max f1 f2) ltac:(lia)). specialize (H2 (Nat.max f1 f2) ltac:(lia)). congruence.
  - intros fuel x D c' t' bs' e G W. destruct (C91_reported _ _ reg X ctxf t bs c' t' bs' e HB G W) as [f1 H1].
    specialize (H1 (Nat.max f1 fuel) ltac:(lia)).
    change (decode reg X ctxf fuel false t bs = Ok x) in D. change (decode reg X ctxf (Nat.max f1 fuel) false t bs = Err e) in H1.
    rewrite (decode_mono_ok reg X ctxf fuel (Nat.max f1 fuel) false t bs x ltac:(lia) D) in H1. discriminate.
Qed.
Print Assumptions C91_one.

(** Decoding fields. *)
Theorem C91_fields : forall TId C (reg : TId -> resolution TId) X (ctxf : TId -> C) fs bs e, is_bytes bs -> e <> EHang ->
  (exists f0, forall fuel, (f0 <= fuel)%nat -> decode_as_fields reg X ctxf fuel fs bs = Err e) <->
  (exists t1 bs1 c' t' bs', next reg (x_maxbits X) (x_len X) ctxf false (map snd fs) bs t1 bs1 /\
     reaches reg (x_maxbits X) (x_len X) ctxf false t1 bs1 c' t' bs' /\ wrong reg (x_maxbits X) (x_len X) c' t' bs' e).
Proof.
  intros TId C reg X ctxf fs bs e HB HE. split.
  - intros [f0 H]. specialize (H f0 (le_n f0)). unfold decode_as_fields in H. apply visit_err in H.
    exact (items_next reg X ctxf f0 false (decode_err_true reg X ctxf f0 false) _ _ _ HB H HE).
  - intros (t1 & bs1 & c' & t' & bs' & N & G & W).
    destruct (items_reported reg X ctxf false _ _ _ _ e N (decode_err_reported reg X ctxf false t1 bs1 c' t' bs' e G (next_bytes reg X ctxf _ _ _ _ _ HB N) W)) as [f0 H].
    exists f0. intros fuel L. unfold decode_as_fields. apply visit_err. apply H. exact L.
Qed.
Print Assumptions C91_fields.

(** The tracing decoder: what its error says is the case at the very item the error points to, apart from marks that it is compact; a limit on the
    capacity is reported only for an item with more than 100,000,000 children. *)
Theorem C91_trace : forall TId (reg : TId -> resolution TId) X fuel t bs at_ v e, is_bytes bs -> variants_within reg 100000000 ->
  trace_as_type reg X fuel t bs = Err (FromVisitor at_ v e) -> e <> CDecode EHang ->
  exists pre rest c1 t1 c2 t2, bs = pre ++ rest /\ located reg (x_maxbits X) (x_len X) false t at_ v pre c1 t1 /\ behind_compact reg c1 t1 c2 t2 /\
    match e with CDecode d => wrong reg (x_maxbits X) (x_len X) c2 t2 rest d | CCapacity => crowded reg (x_len X) 100000000 t2 rest end.
Proof.
  intros TId reg X fuel t bs a v e HB VW H HE. unfold trace_as_type in H.
  apply trace_located in H as (rel & pre & rest & c' & t' & f' & -> & -> & LO & TR); [|exact VW|exact HB]. cbn [app] in *.
  apply is_bytes_app in HB as [_ HB]. destruct (here_err reg X _ _ _ _ _ _ HB TR HE) as (c2 & t2 & B & W). exists pre, rest, c', t', c2, t2. auto.
Qed.
Print Assumptions C91_trace.
(** An error without a location is about the outermost item. *)
Theorem C91_trace_outermost : forall TId (reg : TId -> resolution TId) X fuel t bs e, is_bytes bs ->
  trace_as_type reg X fuel t bs = Err (FromDecode e) -> e <> CDecode EHang ->
  exists c2 t2, behind_compact reg false t c2 t2 /\
    match e with CDecode d => wrong reg (x_maxbits X) (x_len X) c2 t2 bs d | CCapacity => crowded reg (x_len X) 100000000 t2 bs end.
Proof. intros TId reg X fuel t bs e HB H HE. exact (here_err reg X _ _ _ _ _ _ HB H HE). Qed.
Print Assumptions C91_trace_outermost.

(** ** Non-vacuity: every kind of error occurs. *)
Example C91_non_vacuous :
  let d := decode_as_type demo xdemo (fun t => t) 9 in
  d 4%nat [7; 8; 1] = Err ENotEnough /\ d 25%nat [1] = Err ETypeResolving /\ d 99%nat [] = Err EIdNotFound /\
  d 30%nat [8; 0; 1; 9] = Err EVariantNotFound /\ d 9%nat [1; 2] = Err ECodec /\ d 16%nat [0; 0; 17; 0] = Err EInvalidChar /\
  d 3%nat [4; 255] = Err EInvalidStr /\ d 28%nat [0] = Err ECannotCompact /\ d 10%nat (3 :: [1; 0; 0; 64]) = Err EBits.
Proof. cbv zeta. repeat apply conj; lazy; reflexivity. Qed.
(** The wrong index of the second element of a list of enums, reached past the first. *)
Example C91_reaches : reaches demo (x_maxbits xdemo) (x_len xdemo) (fun t => t) false 30%nat [8; 0; 1; 9] false 6%nat [9] /\
  wrong demo (x_maxbits xdemo) (x_len xdemo) false 6%nat [9] EVariantNotFound.
Proof.
  split.
  - eapply (Re_sequence demo _ _ _ 30%nat 6%nat 2 [8] [0; 1; 9] 6%nat [9]); [reflexivity|apply (CE_1 2); reflexivity|reflexivity| |constructor].
    exists [6%nat], [], [Val (DVariant (s2l "A") (Unnamed [Val (DPrim (PU128 1)) 0%nat])) 6%nat], [0; 1]. split; [reflexivity|]. split; [reflexivity|].
    apply (Es_cons demo _ _ _ _ _ _ 6%nat [] _ [] [0; 1] []); [|constructor].
    eapply (E_variant demo (x_maxbits xdemo) (x_len xdemo) (fun t : nat => t) PU256 false 6%nat [] (s2l "A") 0 [(None, 0%nat)]); [reflexivity|auto|reflexivity| |apply FS_unnamed; [reflexivity|right; left; reflexivity]].
    apply (Es_cons demo _ _ _ _ _ _ 0%nat [] _ [] [1] []); [|constructor]. eapply (E_prim demo (x_maxbits xdemo) (x_len xdemo) (fun t : nat => t) PU256 false 0%nat); [reflexivity|]. apply PE_uint. repeat split. constructor; [reflexivity|constructor].
  - eapply Wr_variant; [reflexivity|]. cbn. intros [H|[H|[]]]; discriminate.
Qed.
(** The tracing decoder on the same input. *)
Example C91_trace_example : trace_as_type demo xdemo 9 30%nat [8; 0; 1; 9] =
  Err (FromVisitor [SIndex 1] (Val (DComposite (Unnamed [Val (DVariant (s2l "A") (Unnamed [Val (DPrim (PU128 1)) 0%nat])) 6%nat])) 30%nat) (CDecode EVariantNotFound)).
Proof. lazy. reflexivity. Qed.
