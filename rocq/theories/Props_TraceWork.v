(** * Props_TraceWork: C83, how much work the tracing decoder does. *)
From Verif Require Import Base Value Registry Spec_Scale Scale ScaleFacts Decode DecodeFacts Trace Spec_Trace TraceFacts Spec_Cost Spec_Size SizeFacts Spec_Decode Spec_DecodeWork DecodeWork DecodeWorkFacts DecodeWorkBound TraceWork TraceWorkFacts Demo Props_Decode Props_Size Props_DecodeWork.
Open Scope N_scope.

(** The counting decoder answers what the tracing decoder answers. *)
Theorem C83_same_result : forall TId (reg : TId -> resolution TId) X fuel t bs,
  fst (ktrace reg X fuel [] false t bs) = trace_as_type reg X fuel t bs.
Proof. intros. apply ktrace_erase. Qed.
Print Assumptions C83_same_result.

(** As many calls, nested as deeply, as the plain decoder makes on the same input; no more if it stops because of a list that is too long. *)
Theorem C83_as_plain : forall TId (reg : TId -> resolution TId) X fuel t bs,
  let traced := work (snd (ktrace reg X fuel [] false t bs)) in
  let plain := snd (kdecode reg X (fun t => t) fuel false t bs) in
  calls traced <= calls plain /\ levels traced <= levels plain /\
  ((forall e, trace_as_type reg X fuel t bs = Err e -> cause_of e <> CCapacity) -> traced = plain).
Proof.
  intros TId reg X fuel t bs traced plain. pose proof (ktrace_tracks reg X fuel [] false t bs) as H. unfold tracks in H. rewrite C83_same_result in H. fold traced plain in H.
  destruct (trace_as_type reg X fuel t bs) as [[v r]|e].
  - destruct H as [-> _]. repeat split; lia.
  - destruct (cause_of e) eqn:E.
    + destruct H as [-> _]. repeat split; lia.
    + destruct H as [H1 H2]. split; [exact H1|]. split; [exact H2|]. intro N. destruct (N e eq_refl E).
Qed.
Print Assumptions C83_as_plain.

(** So the bounds of C79 hold for it as well. *)
Theorem C83_depth : forall TId (reg : TId -> resolution TId) X h R, ranks reg h R -> forall fuel t bs, is_bytes bs ->
  levels (work (snd (ktrace reg X fuel [] false t bs))) <= 1 + h t + (1 + R) * N.of_nat (length bs).
Proof.
  intros TId reg X h R HR fuel t bs HB. destruct (C83_as_plain TId reg X fuel t bs) as (_ & H & _). eapply N.le_trans; [exact H|]. apply C79_depth; assumption.
Qed.
Print Assumptions C83_depth.
Theorem C83_calls_linear : forall TId (reg : TId -> resolution TId) X m S, call_weights reg m S ->
  (forall t e, reg t = ResTy (TSequence e) -> forall v, ~ decodes reg X (fun t => t) e [] v []) ->
  forall fuel t bs, is_bytes bs -> calls (work (snd (ktrace reg X fuel [] false t bs))) <= m t + 2 * S * N.of_nat (length bs).
Proof.
  intros TId reg X m S W NE fuel t bs HB. destruct (C83_as_plain TId reg X fuel t bs) as (H & _ & _). eapply N.le_trans; [exact H|]. apply C79_calls_linear; assumption.
Qed.
Print Assumptions C83_calls_linear.

(** Path segments copied: at most five per call and level of recursion. *)
Theorem C83_copies : forall TId (reg : TId -> resolution TId) X fuel t bs,
  let w := snd (ktrace reg X fuel [] false t bs) in copied w <= 5 * (calls (work w) * levels (work w)).
Proof.
  intros TId reg X fuel t bs w. destruct (ktrace_copies reg X fuel [] false t bs) as [(H & _)|H]; fold w in H; [rewrite H; apply N.le_0_l|]. cbn [length] in H. lia.
Qed.
Print Assumptions C83_copies.
(** So at most quadratically many in the number of bytes. *)
Theorem C83_copies_quadratic : forall TId (reg : TId -> resolution TId) X h R m S, ranks reg h R -> call_weights reg m S ->
  (forall t e, reg t = ResTy (TSequence e) -> forall v, ~ decodes reg X (fun t => t) e [] v []) ->
  forall fuel t bs, is_bytes bs ->
  copied (snd (ktrace reg X fuel [] false t bs)) <= 5 * ((m t + 2 * S * N.of_nat (length bs)) * (1 + h t + (1 + R) * N.of_nat (length bs))).
Proof.
  intros TId reg X h R m S HR W NE fuel t bs HB. eapply N.le_trans; [apply C83_copies|]. apply N.mul_le_mono_l. apply N.mul_le_mono; [apply C83_calls_linear|apply C83_depth]; assumption.
Qed.
Print Assumptions C83_copies_quadratic.

(** Values are cloned only to report an error, and no more of them than the report shows. *)
Theorem C83_clones : forall TId (reg : TId -> resolution TId) X fuel t bs,
  match trace_as_type reg X fuel t bs with
  | Ok _ | Err (FromDecode _) => cloned (snd (ktrace reg X fuel [] false t bs)) = 0
  | Err (FromVisitor _ so_far _) => cloned (snd (ktrace reg X fuel [] false t bs)) <= nodes so_far
  end.
Proof.
  intros TId reg X fuel t bs. pose proof (ktrace_spare reg X fuel [] false t bs) as H. unfold spare in H. rewrite C83_same_result in H.
  destruct (trace_as_type reg X fuel t bs) as [[v r]|[e|a v e]]; exact H.
Qed.
Print Assumptions C83_clones.

(** What is decoded, or shown by an error as decoded so far, is no larger than the number of calls (so C83_calls_linear bounds it). *)
Theorem C83_shown : forall TId (reg : TId -> resolution TId) X fuel t bs,
  match trace_as_type reg X fuel t bs with
  | Ok (v, _) | Err (FromVisitor _ v _) => nodes v <= calls (work (snd (ktrace reg X fuel [] false t bs)))
  | Err (FromDecode _) => True
  end.
Proof.
  intros TId reg X fuel t bs. pose proof (ktrace_shows reg X fuel [] false t bs) as H. unfold shows in H. rewrite C83_same_result in H.
  destruct (trace_as_type reg X fuel t bs) as [[v r]|[e|a v e]]; [exact H|exact I|exact H].
Qed.
Print Assumptions C83_shown.

(** ** Examples *)
Example C83_demo : snd (ktrace demo_sz xdemo 9 [] false 26%nat [8; 5; 1; 4; 9; 3; 0; 0; 7; 3; 1]) = TWork (DWork 15 5) 38 0 /\
  snd (kdecode demo_sz xdemo (fun t => t) 9 false 26%nat [8; 5; 1; 4; 9; 3; 0; 0; 7; 3; 1]) = DWork 15 5.
Proof. split; vm_compute; reflexivity. Qed.
(** The last byte is missing. *)
Example C83_demo_error : exists a v, trace_as_type demo_sz xdemo 9 26%nat [8; 5; 1; 4; 9; 3; 0; 0; 7; 3] = Err (FromVisitor a v (CDecode ECodec)) /\
  (cloned (snd (ktrace demo_sz xdemo 9 [] false 26%nat [8; 5; 1; 4; 9; 3; 0; 0; 7; 3])) <= nodes v /\ 0 < cloned (snd (ktrace demo_sz xdemo 9 [] false 26%nat [8; 5; 1; 4; 9; 3; 0; 0; 7; 3]))) /\ (1 < length a)%nat.
Proof. eexists _, _. split; [vm_compute; reflexivity|]. vm_compute. repeat split; try discriminate; lia. Qed.

(** ** Not linear: struct Tree { kids: Vec<Tree> } again *)
Lemma chain_copies n : forall path, exists v, fst (ktrace tree xdemo (2 * n + 2) path false 0%nat (repeat 4 n ++ [0])) = Ok (v, []) /\
  N.of_nat n * (N.of_nat (length path) + N.of_nat n) <= copied (snd (ktrace tree xdemo (2 * n + 2) path false 0%nat (repeat 4 n ++ [0]))).
Proof.
  induction n as [|n IH]; intro path; [eexists; split; [reflexivity|apply N.le_0_l]|]. replace (2 * S n + 2)%nat with (S (S (2 * n + 2))) by lia. remember (2 * n + 2)%nat as f eqn:Ef. clear Ef.
  assert (CD : forall r, compact_decode (x_len xdemo) (4 :: r) = Ok (1, r)) by reflexivity.
  destruct (IH ((path ++ [SField (s2l "kids")]) ++ [SIndex 0])) as (v & E1 & E2). rewrite !len_snoc in E2.
  assert (K : let m := ktrace tree xdemo (S f) (path ++ [SField (s2l "kids")]) false 1%nat (4 :: repeat 4 n ++ [0]) in
    exists v', fst m = Ok (v', []) /\ N.of_nat (length path) + 1 + (N.of_nat n * (N.of_nat (length path) + 2 + N.of_nat n) + (N.of_nat (length path) + 1)) <= copied (snd m)).
  { cbv zeta. cbn [ktrace]. change (tree 1) with (ResTy (TSequence 0%nat)). cbv iota. rewrite CD. unfold kt_unnamed_composite. change (MAX_CAPACITY <? 1) with false. cbv iota.
    change (N.to_nat 1) with 1%nat. cbn [repeat kt_unnamed]. cbv zeta. rewrite E1. cbv iota. unfold kt_wrap. cbn [fst snd wrap_composite]. eexists. split; [reflexivity|].
    unfold within_tcall, tthen, copy_path. cbn [copied]. rewrite len_snoc. lia. }
  cbv zeta in K. destruct K as (v' & K1 & K2). cbn [repeat app]. remember (S f) as g eqn:Eg. cbn [ktrace]. change (tree 0) with (ResTy (TComposite [(nm "kids", 1%nat)])). cbv iota. cbn [andb negb length Nat.eqb].
  unfold kt_composite. cbn [length Nat.ltb Nat.leb has_unnamed existsb fst is_some negb orb andb nm kt_named]. cbv zeta. rewrite K1. cbv iota. unfold kt_wrap. cbn [fst snd wrap_composite]. eexists. split; [reflexivity|].
  unfold within_tcall, tthen, copy_path. cbn [copied]. lia.
Qed.
Theorem C83_copies_linear_refuted : ~ exists a b, forall fuel bs, is_bytes bs -> copied (snd (ktrace tree xdemo fuel [] false 0%nat bs)) <= a + b * N.of_nat (length bs).
Proof.
  intros (a & b & H). set (n := N.to_nat (a + 2 * b + 1)). destruct (chain_copies n []) as (v & _ & L). cbn [length] in L.
  assert (HB : is_bytes (repeat 4 n ++ [0])).
  { apply Forall_app. split; [apply Forall_forall; intros x Hx; apply repeat_spec in Hx as ->; reflexivity|repeat constructor]. }
  specialize (H (2 * n + 2)%nat _ HB). rewrite len_snoc, repeat_length in H. subst n. rewrite N2Nat.id in *. nia.
Qed.
Print Assumptions C83_copies_linear_refuted.
