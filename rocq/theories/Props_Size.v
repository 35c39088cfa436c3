(** * Props_Size: C74, how large a decoded value can be. *)
From Verif Require Import Base Value Registry Spec_Scale Scale ScaleFacts Decode Spec_Cost Spec_Size SizeFacts Alloc Spec_Alloc AllocFacts Demo Props_Decode.
Open Scope N_scope.

(** If no item of a sequence can be encoded in zero bytes, and the registry has weights, the number of values decoded is at most
    linear in the number of bytes read. *)
Theorem C74_size_linear : forall TId C (reg : TId -> resolution TId) X (ctxf : TId -> C) m S, weights reg m S ->
  (forall t e, reg t = ResTy (TSequence e) -> forall v, ~ decodes reg X ctxf e [] v []) ->
  forall t bs v r, is_bytes bs -> decodes reg X ctxf t bs v r ->
  exists pre, bs = pre ++ r /\ nodes v <= m t + 2 * S * N.of_nat (length pre).
Proof.
  intros TId C reg X ctxf m S W NE t bs v r HB D. apply C21_decode_iff_encoding in D as (pre & -> & E); [|exact HB]. exists pre. split; [reflexivity|].
  eapply (size_linear reg _ _ ctxf PU256 false m S W); [|exact E]. intros t' e R v' b E' ->. apply (NE t' e R v').
  apply C21_decode_iff_encoding; [constructor|]. exists []. auto.
Qed.
Print Assumptions C74_size_linear.

(** The demo registry, without the types that break the conditions (struct Loop { next: Loop } and Vec<()>). *)
Definition demo_sz (t : nat) : resolution nat := match t with 15%nat | 22%nat => ResNotFound | _ => demo t end.
Definition demo_m (t : nat) : N :=
  match t with 4%nat | 8%nat | 9%nat | 12%nat => 3 | 11%nat | 18%nat | 19%nat | 27%nat | 28%nat => 2 | 23%nat => 5 | _ => 1 end.
Example C74_demo_weights : weights demo_sz demo_m 5.
Proof.
  constructor.
  - intro t. do 31 (destruct t as [|t]; [cbn; lia|]). cbn. lia.
  - intros t fs R. do 31 (destruct t as [|t]; [try discriminate R; try (injection R as <-; cbn; lia)|]). discriminate.
  - intros t fs R. do 31 (destruct t as [|t]; [try discriminate R; try (injection R as <-; cbn; lia)|]). discriminate.
  - intros t e n R. do 31 (destruct t as [|t]; [try discriminate R; try (injection R as <- <-; cbn; lia)|]). discriminate.
  - intros t e R. do 31 (destruct t as [|t]; [try discriminate R; try (injection R as <-; cbn; lia)|]). discriminate.
  - intros t e R. do 31 (destruct t as [|t]; [try discriminate R; try (injection R as <-; cbn; lia)|]). discriminate.
  - intros t vs v R I. do 31 (destruct t as [|t]; [try discriminate R; try (injection R as <-; cbn in I; repeat (destruct I as [<-|I]; [cbn; lia|]); contradiction)|]). discriminate.
Qed.
Example C74_demo_nonempty : forall t e, demo_sz t = ResTy (TSequence e) -> forall v, ~ decodes demo_sz xdemo (fun t => t) e [] v [].
Proof.
  intros t e R v [f D].
  assert (HE : e = 0%nat \/ e = 5%nat \/ e = 23%nat \/ e = 2%nat \/ e = 6%nat).
  { do 31 (destruct t as [|t]; [try discriminate R; try (injection R as <-; tauto)|]). discriminate. }
  destruct f as [|[|[|[|f]]]]; destruct HE as [->|[->|[->|[->| ->]]]]; discriminate D.
Qed.
Example C74_demo : decodes demo_sz xdemo (fun t => t) 23%nat [5; 1; 4; 9; 3; 0; 7]
    (Val (DComposite (Named [(s2l "e", Val (DVariant (s2l "B") (Named [(s2l "x", Val (DPrim (PBool true)) 2%nat);
        (s2l "y", Val (DComposite (Unnamed [Val (DPrim (PU128 9)) 0%nat])) 5%nat)])) 6%nat);
      (s2l "t", Val (DComposite (Unnamed [Val (DPrim (PU128 3)) 0%nat; Val (DPrim (PBool false)) 2%nat])) 9%nat)])) 23%nat) [7] /\
  demo_m 23%nat + 2 * 5 * 6 = 65.
Proof. split; [exists 6%nat; reflexivity|reflexivity]. Qed.

(** Together with C73: so is everything a successful decoding reserves. *)
Theorem C74_capacity_linear : forall TId C (reg : TId -> resolution TId) X (ctxf : TId -> C) m S, weights reg m S ->
  (forall t e, reg t = ResTy (TSequence e) -> forall v, ~ decodes reg X ctxf e [] v []) ->
  forall fuel t bs v r, is_bytes bs -> decode_as_type reg X ctxf fuel t bs = Ok (v, r) ->
  total (snd (ldecode reg X ctxf fuel false t bs)) < m t + 2 * S * N.of_nat (length bs).
Proof.
  intros TId C reg X ctxf m S W NE fuel t bs v r HB D.
  destruct (C74_size_linear TId C reg X ctxf m S W NE t bs v r HB (ex_intro _ fuel D)) as (pre & -> & L).
  rewrite (proj1 (proj2 (ldecode_logs reg X ctxf fuel false t (pre ++ r))) v r D). pose proof (list_sizes_nodes v). rewrite app_length. nia.
Qed.
Print Assumptions C74_capacity_linear.

(** The condition on items is necessary: a sequence whose items can be encoded in zero bytes is decoded from at most nine bytes
    to as many copies as a length prefix can say.  No function of the number of bytes bounds the size (unless it exceeds this). *)
Theorem C74_size_refuted : forall TId C (reg : TId -> resolution TId) X (ctxf : TId -> C) t e v, reg t = ResTy (TSequence e) ->
  decodes reg X ctxf e [] v [] -> forall n, n < 2 ^ x_len X ->
  exists bs, is_bytes bs /\ (length bs <= 9)%nat /\
    decodes reg X ctxf t bs (Val (DComposite (Unnamed (repeat v (N.to_nat n)))) (ctxf t)) [] /\
    nodes (Val (DComposite (Unnamed (repeat v (N.to_nat n)))) (ctxf t)) = 1 + n * nodes v.
Proof.
  intros TId C reg X ctxf t e v R D n Hn. apply C21_decode_iff_encoding in D as (pre & E0 & E); [|constructor].
  symmetry in E0. apply app_eq_nil in E0 as [-> _].
  assert (H64 : n < 2 ^ 64). { unfold x_len in Hn. destruct (x_len64 X); [exact Hn|]. eapply N.lt_trans; [exact Hn|reflexivity]. }
  destruct (compact_nine n H64) as (bs & HC & HB & HL). exists bs. split; [exact HB|]. split; [exact HL|]. split.
  - apply C21_decode_iff_encoding; [exact HB|]. exists bs. rewrite app_nil_r. split; [reflexivity|]. rewrite <- (app_nil_r bs).
    eapply E_sequence; [exact R| | |]; rewrite ?repeat_length, ?N2Nat.id; [exact Hn|exact HC|]. apply repeat_encs. exact E.
  - cbn [nodes composite_map values]. rewrite map_repeat, total_repeat, N2Nat.id. reflexivity.
Qed.
Print Assumptions C74_size_refuted.
(** Vec<()> is such a sequence. *)
Example C74_units : demo 22%nat = ResTy (TSequence 21%nat) /\ decodes demo xdemo (fun _ => tt) 21%nat [] (unnamed_composite []) [].
Proof. split; [reflexivity|exists 1%nat; reflexivity]. Qed.

(** The bytes held in the leaves of a value (text, 256-bit integers, whole bytes of bits) are at most the bytes read, at any type
    of any registry. *)
Theorem C74_leaves : forall TId C (reg : TId -> resolution TId) X (ctxf : TId -> C) t bs v r, is_bytes bs -> decodes reg X ctxf t bs v r ->
  leaf_bytes v + N.of_nat (length r) <= N.of_nat (length bs).
Proof.
  intros TId C reg X ctxf t bs v r HB D. apply C21_decode_iff_encoding in D as (pre & -> & E); [|exact HB].
  pose proof (proj1 (leaf_bound reg _ _ ctxf PU256 false (fun b => eq_refl)) _ _ _ _ E) as H. unfold len in H. rewrite app_length. lia.
Qed.
Print Assumptions C74_leaves.
Example C74_leaves_demo : decodes demo xdemo (fun _ => tt) 3%nat [12; 97; 98; 99; 1] (vstring (s2l "abc")) [1] /\ leaf_bytes (vstring (s2l "abc")) = 3.
Proof. split; [exists 1%nat; reflexivity|reflexivity]. Qed.
