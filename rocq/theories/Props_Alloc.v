(** * Props_Alloc: C73, what decoding asks the allocator for. *)
From Verif Require Import Base Value Registry Spec_Scale Scale ScaleFacts Decode Trace Alloc Spec_Cost Spec_Alloc AllocFacts Demo.
Open Scope N_scope.

(** The instrumented decoders of Alloc.v return what the decoders of Decode.v and Trace.v return. *)
Theorem C73_same_results : forall TId C (reg : TId -> resolution TId) X (ctxf : TId -> C) fuel t bs,
  fst (ldecode reg X ctxf fuel false t bs) = decode_as_type reg X ctxf fuel t bs /\
  fst (ltrace reg X fuel [] false t bs) = trace_as_type reg X fuel t bs.
Proof. intros. split; [apply (ldecode_logs reg X ctxf)|apply (ltrace_logs reg X)]. Qed.
Print Assumptions C73_same_results.

(** When decoding succeeds, the capacities asked for are exactly the lengths of the lists of the value, no more: together one
    less than the number of values in it. *)
Theorem C73_success_exact : forall TId C (reg : TId -> resolution TId) X (ctxf : TId -> C) fuel t bs v r,
  decode_as_type reg X ctxf fuel t bs = Ok (v, r) ->
  snd (ldecode reg X ctxf fuel false t bs) = list_sizes v /\ total (list_sizes v) + 1 = nodes v.
Proof. intros. split; [eapply (ldecode_logs reg X ctxf); eauto|apply list_sizes_nodes]. Qed.
Print Assumptions C73_success_exact.
Theorem C73_traced_success_exact : forall TId (reg : TId -> resolution TId) X fuel t bs v r,
  trace_as_type reg X fuel t bs = Ok (v, r) ->
  snd (ltrace reg X fuel [] false t bs) = list_sizes v /\ total (list_sizes v) + 1 = nodes v.
Proof. intros. split; [eapply (ltrace_logs reg X); eauto|apply list_sizes_nodes]. Qed.
Print Assumptions C73_traced_success_exact.
Example C73_success_demo : decode_as_type demo xdemo (fun _ => tt) 6%nat 23%nat [5; 1; 4; 9; 3; 0] =
    Ok (named_composite [(s2l "e", named_variant (s2l "B") [(s2l "x", vbool true); (s2l "y", unnamed_composite [vu128 9])]); (s2l "t", unnamed_composite [vu128 3; vbool false])], []) /\
  snd (ldecode demo xdemo (fun _ => tt) 6%nat false 23%nat [5; 1; 4; 9; 3; 0]) = [2; 2; 1; 2].
Proof. split; reflexivity. Qed.

(** The tracing decoder: no single request exceeds 100 million, except the number of fields of a struct or variant of the
    registry all of whose fields are named; whatever the input, the registry, and whether it succeeds. *)
Theorem C73_traced_bounded : forall TId (reg : TId -> resolution TId) X fuel t bs n,
  In n (snd (ltrace reg X fuel [] false t bs)) -> n <= 100000000 \/ named_field_count reg n.
Proof. intros TId reg X fuel t bs n H. exact (proj2 (proj2 (ltrace_logs reg X fuel [] false t bs)) n H). Qed.
Print Assumptions C73_traced_bounded.
(** So with an allocator that has room for that it always returns, with the result of the model without an allocator. *)
Theorem C73_traced_returns : forall TId (reg : TId -> resolution TId) X L fuel t bs, 100000000 <= L ->
  (forall n, named_field_count reg n -> n <= L) ->
  run L (ltrace reg X fuel [] false t bs) = Returned (trace_as_type reg X fuel t bs).
Proof.
  intros TId reg X L fuel t bs HL HN. unfold run. rewrite (proj2 (forallb_forall _ _)); [f_equal; apply (ltrace_logs reg X)|].
  intros n H. apply N.leb_le. destruct (C73_traced_bounded _ _ _ _ _ _ _ H); [lia|auto].
Qed.
Print Assumptions C73_traced_returns.
(** The hypotheses are met by the demo registry, whose largest struct has few fields. *)
Example C73_traced_demo : (forall n, named_field_count demo n -> n <= 100000000) /\
  run 100000000 (ltrace demo xdemo 4 [] false 5%nat [3; 255; 255; 255; 255; 1; 2]) = Returned (Err (FromDecode CCapacity)) /\
  run 100000000 (ltrace demo xdemo 4 [] false 5%nat [254; 255; 0; 0; 1; 2]) = Returned (trace_as_type demo xdemo 4 5%nat [254; 255; 0; 0; 1; 2]).
Proof.
  split; [|split; [reflexivity|]].
  - intros n (t & fs & -> & _ & [R|(vs & v & R & I & <-)]).
    + do 31 (destruct t as [|t]; [try discriminate R; try (injection R as <-; vm_compute; discriminate)|]); discriminate.
    + do 31 (destruct t as [|t]; [try discriminate R; try (injection R as <-; cbn in I; repeat (destruct I as [<-|I]; [vm_compute; discriminate|]); contradiction)|]); discriminate.
  - apply C73_traced_returns; [lia|]. intros n (t & fs & -> & _ & [R|(vs & v & R & I & <-)]).
    + do 31 (destruct t as [|t]; [try discriminate R; try (injection R as <-; vm_compute; discriminate)|]); discriminate.
    + do 31 (destruct t as [|t]; [try discriminate R; try (injection R as <-; cbn in I; repeat (destruct I as [<-|I]; [vm_compute; discriminate|]); contradiction)|]); discriminate.
Qed.

(** The plain decoder: a request is a number written in the registry, or a length announced by the input, which only the width
    of length prefixes limits. *)
Theorem C73_plain_requests : forall TId C (reg : TId -> resolution TId) X (ctxf : TId -> C) fuel t bs n,
  In n (snd (ldecode reg X ctxf fuel false t bs)) -> written_in reg n \/ n < 2 ^ x_len X.
Proof. intros TId C reg X ctxf fuel t bs n H. exact (proj2 (proj2 (ldecode_logs reg X ctxf fuel false t bs)) n H). Qed.
Print Assumptions C73_plain_requests.

(** That it always returns when the tracing decoder does is false: at *every* sequence type of *every* registry a few bytes,
    the announcement of a length, ask for as much as a length prefix can say, before any item is read. *)
Theorem C73_plain_returns_refuted : forall TId C (reg : TId -> resolution TId) X (ctxf : TId -> C) L t e,
  reg t = ResTy (TSequence e) -> L < 2 ^ x_len X - 1 ->
  exists bs, is_bytes bs /\ (length bs <= 9)%nat /\
    forall fuel, run L (ldecode reg X ctxf (S fuel) false t bs) = Died.
Proof.
  intros TId C reg X ctxf L t e R HL.
  assert (HB : exists bs, is_bytes bs /\ (length bs <= 9)%nat /\ compact_decode (x_len X) bs = Ok (2 ^ x_len X - 1, [])).
  { unfold x_len in *. destruct (x_len64 X).
    - exists [19; 255; 255; 255; 255; 255; 255; 255; 255]. split; [repeat constructor|]. split; [cbn; lia|reflexivity].
    - exists [3; 255; 255; 255; 255]. split; [repeat constructor|]. split; [cbn; lia|reflexivity]. }
  destruct HB as (bs & HB & HLen & HC). exists bs. split; [exact HB|]. split; [exact HLen|]. intro fuel.
  eapply sequence_dies; eauto.
Qed.
Print Assumptions C73_plain_returns_refuted.
(** A [Vec] cannot hold more than [isize::MAX = 2^63 - 1] bytes, and a [Value] is at least one byte: if lengths are read as u64,
    nine bytes are enough on any machine. *)
Example C73_any_machine : x_len64 xdemo = true /\ demo 5%nat = ResTy (TSequence 0%nat) /\
  run (2 ^ 63 - 1) (ldecode demo xdemo (fun _ => tt) 3 false 5%nat [19; 255; 255; 255; 255; 255; 255; 255; 255]) = Died /\
  run (2 ^ 63 - 1) (ltrace demo xdemo 3 [] false 5%nat [19; 255; 255; 255; 255; 255; 255; 255; 255]) = Returned (Err (FromDecode CCapacity)).
Proof.
  split; [reflexivity|]. split; [reflexivity|]. split; [|reflexivity]. eapply (sequence_dies demo xdemo (fun _ => tt)); [reflexivity|reflexivity|reflexivity].
Qed.

(** The limit of the tracing decoder is per list: its total is not bounded by the number of values it can hold.  At a type that
    is a list of itself, each four bytes reserve room for another 100 million values, all of it in use at the same time. *)
Theorem C73_traced_total_refuted : exists TId (reg : TId -> resolution TId) t, forall X k, exists bs, is_bytes bs /\
  length bs = (4 * k)%nat /\ forall fuel, (k < fuel)%nat -> snd (ltrace reg X fuel [] false t bs) = repeat 100000000 k /\
    exists err, fst (ltrace reg X fuel [] false t bs) = Err err.
Proof.
  exists unit, (fun _ => ResTy (TSequence tt)), tt. intros X k. exists (concat (repeat [2; 132; 215; 23] k)).
  split; [induction k; cbn [repeat concat]; [constructor|repeat (constructor; [lia|]); exact IHk]|].
  split; [induction k; cbn [repeat concat app length]; lia|].
  assert (HG : forall k fuel path, (k < fuel)%nat -> snd (ltrace (fun _ => ResTy (TSequence tt)) X fuel path false tt (concat (repeat [2; 132; 215; 23] k))) = repeat 100000000 k /\
    exists err, fst (ltrace (fun _ => ResTy (TSequence tt)) X fuel path false tt (concat (repeat [2; 132; 215; 23] k))) = Err err).
  { clear k. induction k as [|k IH]; intros fuel path HF; (destruct fuel as [|fuel]; [lia|]).
    - cbn [ltrace repeat concat compact_decode quiet fst snd]. split; [reflexivity|eauto].
    - assert (HC : compact_decode (x_len X) (concat (repeat [2; 132; 215; 23] (S k))) = Ok (100000000, concat (repeat [2; 132; 215; 23] k))).
      { cbn [repeat concat app]. unfold x_len. destruct (x_len64 X); reflexivity. }
      cbn [ltrace]. rewrite HC. unfold lt_wrap, lt_unnamed_composite. change (MAX_CAPACITY <? 100000000) with false.
      replace (N.to_nat 100000000) with (S (pred (N.to_nat 100000000))) by (assert (N.to_nat 100000000 <> 0%nat) by (intro Q; apply (f_equal N.of_nat) in Q; rewrite N2Nat.id in Q; discriminate); lia).
      generalize (pred (N.to_nat 100000000)) as m. intro m.
      destruct (IH fuel (path ++ [SIndex 0]) ltac:(lia)) as [HS [err HE]]. cbn [repeat lt_unnamed]. unfold reserve. cbn [fst snd]. rewrite HE. cbn [fst snd]. rewrite HS. split; [reflexivity|].
      cbn [wrap_composite]. eauto. }
  intros fuel HF. apply HG. exact HF.
Qed.
Print Assumptions C73_traced_total_refuted.
