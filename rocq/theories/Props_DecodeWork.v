(** * Props_DecodeWork: C79, how much work decoding does and how deeply it recurses. *)
From Verif Require Import Base Value Registry Spec_Scale Scale ScaleFacts Decode DecodeFacts Spec_Cost Spec_Size SizeFacts Spec_Decode Spec_DecodeWork DecodeWork DecodeWorkFacts DecodeWorkBound Demo Props_Decode Props_Size.
Open Scope N_scope.

(** The counting decoder answers what the decoder answers. *)
Theorem C79_same_result : forall TId C (reg : TId -> resolution TId) X (ctxf : TId -> C) fuel t bs,
  fst (kdecode reg X ctxf fuel false t bs) = decode_as_type reg X ctxf fuel t bs.
Proof. intros. apply kdecode_erase. Qed.
Print Assumptions C79_same_result.

(** Recursion: at most a constant per byte of the input (and per level of the type). *)
Theorem C79_depth : forall TId C (reg : TId -> resolution TId) X (ctxf : TId -> C) h R, ranks reg h R -> forall fuel t bs, is_bytes bs ->
  levels (snd (kdecode reg X ctxf fuel false t bs)) <= 1 + h t + (1 + R) * N.of_nat (length bs).
Proof. intros TId C reg X ctxf h R HR fuel t bs HB. exact (levels_bound reg X ctxf h R HR fuel false t bs HB). Qed.
Print Assumptions C79_depth.
(** So decoding ends within that depth, with an answer that does not depend on more. *)
Theorem C79_terminates_within : forall TId C (reg : TId -> resolution TId) X (ctxf : TId -> C) h R, ranks reg h R -> forall t bs, is_bytes bs ->
  forall fuel, 1 + h t + (1 + R) * N.of_nat (length bs) < N.of_nat fuel ->
  decode_as_type reg X ctxf fuel t bs <> Err EHang /\
  forall more, (fuel <= more)%nat -> decode_as_type reg X ctxf more t bs = decode_as_type reg X ctxf fuel t bs.
Proof.
  intros TId C reg X ctxf h R HR t bs HB fuel HF.
  assert (NH : decode_as_type reg X ctxf fuel t bs <> Err EHang).
  { intro E. rewrite <- (C79_same_result TId C reg X ctxf fuel t bs) in E. apply hang_levels in E. pose proof (C79_depth TId C reg X ctxf h R HR fuel t bs HB). lia. }
  split; [exact NH|]. intros more HM. destruct (decode_mono reg X ctxf fuel more HM false t bs) as [E|E]; [contradiction|]. symmetry. exact E.
Qed.
Print Assumptions C79_terminates_within.

(** Calls: linear in the number of bytes, whether decoding succeeds or fails, if no item of a sequence can be encoded in zero bytes. *)
Theorem C79_calls_linear : forall TId C (reg : TId -> resolution TId) X (ctxf : TId -> C) m S, call_weights reg m S ->
  (forall t e, reg t = ResTy (TSequence e) -> forall v, ~ decodes reg X ctxf e [] v []) ->
  forall fuel t bs, is_bytes bs -> calls (snd (kdecode reg X ctxf fuel false t bs)) <= m t + 2 * S * N.of_nat (length bs).
Proof.
  intros TId C reg X ctxf m S W NE fuel t bs HB.
  assert (NE' : forall t e, reg t = ResTy (TSequence e) -> forall v bs, enc reg (x_maxbits X) (x_len X) ctxf PU256 false false e v bs -> bs <> []).
  { intros t' e R v b E ->. apply (NE t' e R v). apply C21_decode_iff_encoding; [constructor|]. exists []. auto. }
  pose proof (calls_bound reg X ctxf m S W NE' fuel false t bs HB) as H. unfold okc in H. fold (len bs).
  destruct (fst (kdecode reg X ctxf fuel false t bs)) as [[v r]|e]; [|exact H]. destruct H as (pre & -> & _ & H). rewrite len_app. unfold SizeFacts.within in H. destruct (len pre =? 0); nia.
Qed.
Print Assumptions C79_calls_linear.

(** From below: every value decoded is a call, every nesting a level. *)
Theorem C79_at_least : forall TId C (reg : TId -> resolution TId) X (ctxf : TId -> C) fuel t bs v r, decode_as_type reg X ctxf fuel t bs = Ok (v, r) ->
  nodes v <= calls (snd (kdecode reg X ctxf fuel false t bs)) /\ depth v <= levels (snd (kdecode reg X ctxf fuel false t bs)).
Proof. intros TId C reg X ctxf fuel t bs v r E. eapply below. rewrite C79_same_result. exact E. Qed.
Print Assumptions C79_at_least.

(** ** Examples *)
Definition demo_calls (t : nat) : N :=
  match t with 4%nat | 8%nat | 9%nat | 12%nat | 18%nat | 28%nat => 3 | 7%nat | 11%nat | 19%nat | 27%nat => 2 | 23%nat => 5 | _ => 1 end.
Example C79_demo_weights : call_weights demo_sz demo_calls 5.
Proof.
  constructor.
  - intro t. do 31 (destruct t as [|t]; [cbn; lia|]). cbn. lia.
  - intros t fs R. do 31 (destruct t as [|t]; [try discriminate R; try (injection R as <-; cbn; lia)|]). discriminate.
  - intros t fs R. do 31 (destruct t as [|t]; [try discriminate R; try (injection R as <-; cbn; lia)|]). discriminate.
  - intros t e n R. do 31 (destruct t as [|t]; [try discriminate R; try (injection R as <- <-; cbn; lia)|]). discriminate.
  - intros t e R. do 31 (destruct t as [|t]; [try discriminate R; try (injection R as <-; cbn; lia)|]). discriminate.
  - intros t e R. do 31 (destruct t as [|t]; [try discriminate R; try (injection R as <-; cbn; lia)|]). discriminate.
  - intros t vs v R I. do 31 (destruct t as [|t]; [try discriminate R; try (injection R as <-; cbn in I; repeat (destruct I as [<-|I]; [cbn; lia|]); contradiction)|]). discriminate.
Qed.
Definition demo_h (t : nat) : N :=
  match t with 4%nat | 7%nat | 8%nat | 9%nat | 11%nat | 19%nat | 27%nat => 1 | 12%nat | 18%nat | 23%nat | 28%nat => 2 | _ => 0 end.
Example C79_demo_ranks : ranks demo_sz demo_h 2.
Proof.
  constructor.
  - intros t u [t1 fs nm u1 R I|t1 ts u1 R I|t1 n u1 R I|t1 u1 R];
      do 31 (destruct t1 as [|t1]; [try discriminate R; try (injection R as <-; cbn in I; repeat (destruct I as [E|I]; [try injection E as <- <-; subst; reflexivity|]); contradiction);
        try (injection R as <- <-; reflexivity); try (injection R as <-; reflexivity)|]); discriminate.
  - intros t e R. do 31 (destruct t as [|t]; [try discriminate R; try (injection R as <-; cbn; lia)|]). discriminate.
  - intros t vs v f R I I'. do 31 (destruct t as [|t]; [try discriminate R; try (injection R as <-; cbn in I; repeat (destruct I as [<-|I]; [cbn in I'; repeat (destruct I' as [<-|I']; [cbn; lia|]); contradiction|]); contradiction)|]). discriminate.
Qed.
Example C79_demo : snd (kdecode demo_sz xdemo (fun t => t) 9 false 26%nat [8; 5; 1; 4; 9; 3; 0; 0; 7; 3; 1]) = DWork 15 5 /\
  demo_calls 26%nat + 2 * 5 * 11 = 111 /\ 1 + demo_h 26%nat + (1 + 2) * 11 = 34.
Proof. repeat apply conj; vm_compute; reflexivity. Qed.

(** ** No limit on the depth: struct Tree { kids: Vec<Tree> } *)
Example C79_tree_ranks : ranks tree (fun t => match t with O => 1 | _ => 0 end) 1.
Proof.
  constructor.
  - intros t u [t1 fs nm u1 R I|t1 ts u1 R I|t1 n u1 R I|t1 u1 R]; destruct t1 as [|[|t1]]; try discriminate R. injection R as <-. destruct I as [[= _ <-]|[]]. reflexivity.
  - intros t e R. destruct t as [|[|t]]; try discriminate R. injection R as <-. reflexivity.
  - intros t vs v f R. destruct t as [|[|t]]; discriminate R.
Qed.
Fixpoint chain (n : nat) : value unit :=
  named_composite [(s2l "kids", unnamed_composite (match n with O => [] | S n' => [chain n'] end))].
Lemma chain_decodes n : decode_as_type tree xdemo (fun _ => tt) (2 * n + 2) 0%nat (repeat 4 n ++ [0]) = Ok (chain n, []).
Proof.
  unfold decode_as_type. induction n as [|n IH]; [reflexivity|]. replace (2 * S n + 2)%nat with (S (S (2 * n + 2))) by lia. remember (2 * n + 2)%nat as f eqn:Ef. clear Ef.
  assert (CD : forall r, compact_decode (x_len xdemo) (4 :: r) = Ok (1, r)) by reflexivity.
  assert (K : decode tree xdemo (fun _ => tt) (S f) false 1%nat (4 :: repeat 4 n ++ [0]) = Ok (unnamed_composite [chain n], [])).
  { cbn [decode]. change (tree 1) with (ResTy (TSequence 0%nat)). cbv iota. rewrite CD. cbn [bind fst snd]. unfold to_unnamed. change (N.to_nat 1) with 1%nat. cbn [repeat decode_items]. rewrite IH. reflexivity. }
  cbn [repeat app]. remember (S f) as g eqn:Eg. cbn [decode]. change (tree 0) with (ResTy (TComposite [(nm "kids", 1%nat)])). cbv iota. cbn [andb negb length Nat.eqb].
  unfold visit_composite. cbn [length Nat.ltb Nat.leb has_unnamed existsb fst is_some negb orb andb nm decode_named]. rewrite K. reflexivity.
Qed.
Lemma chain_depth n : depth (chain n) = 2 * N.of_nat n + 2.
Proof.
  induction n as [|n IH]; [reflexivity|]. cbn [chain named_composite unnamed_composite depth composite_map values map snd largest fold_right]. unfold named_composite, unnamed_composite, without_context. cbn [depth composite_map values map snd largest fold_right]. rewrite IH. lia.
Qed.
Theorem C79_depth_unbounded_refuted : ~ exists limit, forall fuel bs, is_bytes bs -> levels (snd (kdecode tree xdemo (fun _ => tt) fuel false 0%nat bs)) <= limit.
Proof.
  intros [limit H]. pose proof (C79_at_least _ _ tree xdemo (fun _ => tt) _ 0%nat _ _ _ (chain_decodes (N.to_nat limit))) as [_ L].
  rewrite chain_depth in L. assert (HB : is_bytes (repeat 4 (N.to_nat limit) ++ [0])).
  { apply Forall_app. split; [apply Forall_forall; intros x Hx; apply repeat_spec in Hx as ->; reflexivity|repeat constructor]. }
  specialize (H (2 * N.to_nat limit + 2)%nat _ HB). lia.
Qed.
Print Assumptions C79_depth_unbounded_refuted.

(** ** The condition on items is needed: nine bytes can cause any number of calls a length prefix can say. *)
Theorem C79_calls_refuted : forall TId C (reg : TId -> resolution TId) X (ctxf : TId -> C) t e v, reg t = ResTy (TSequence e) ->
  decodes reg X ctxf e [] v [] -> forall n, n < 2 ^ x_len X ->
  exists fuel bs, is_bytes bs /\ (length bs <= 9)%nat /\ n < calls (snd (kdecode reg X ctxf fuel false t bs)).
Proof.
  intros TId C reg X ctxf t e v R D n Hn. destruct (C74_size_refuted TId C reg X ctxf t e v R D n Hn) as (bs & HB & HL & [fuel D'] & E). exists fuel, bs.
  split; [exact HB|]. split; [exact HL|]. apply C79_at_least in D' as [L _]. rewrite E in L. pose proof (nodes_pos v). nia.
Qed.
Print Assumptions C79_calls_refuted.
