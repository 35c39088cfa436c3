(** * Props_Decode: C21, C22, C23, C29, C30, C36, C48, C49 *)
From Verif Require Import Base Value ValueFacts Registry Spec_Scale Spec_Decode Spec_Trace Scale ScaleFacts BitsFacts.
From Verif Require Import Decode DecodeFacts DecodeMore Trace TraceFacts Demo.
Local Open Scope N_scope.

(** Decoding at type [t] returns [v] and leaves [r] unread.  ([fuel] only bounds the depth of the recursion; see C48.) *)
Definition decodes {TId C} (reg : TId -> resolution TId) X (ctxf : TId -> C) t bs v r : Prop :=
  exists fuel, decode_as_type reg X ctxf fuel t bs = Ok (v, r).

(** ** C21 *)
Theorem C21_decode_iff_encoding : forall TId C (reg : TId -> resolution TId) X (ctxf : TId -> C) t bs v r, is_bytes bs ->
  (decodes reg X ctxf t bs v r <-> exists pre, bs = pre ++ r /\ enc reg (x_maxbits X) (x_len X) ctxf PU256 false false t v pre).
Proof.
  intros TId C reg X ctxf t bs v r HB. split.
  - intros [fuel H]. eapply decode_sound; eauto.
  - intros (pre & -> & E). apply (decode_complete reg X ctxf false) in E as [f0 H]. exists f0. apply H. lia.
Qed.
Print Assumptions C21_decode_iff_encoding.

(** The recursion bound does not matter: two runs that finish agree. *)
Theorem C21_fuel_irrelevant : forall TId C (reg : TId -> resolution TId) X (ctxf : TId -> C) f1 f2 t bs,
  decode_as_type reg X ctxf f1 t bs <> Err EHang -> decode_as_type reg X ctxf f2 t bs <> Err EHang ->
  decode_as_type reg X ctxf f1 t bs = decode_as_type reg X ctxf f2 t bs.
Proof.
  intros TId C reg X ctxf f1 f2 t bs H1 H2. unfold decode_as_type in *.
  destruct (decode_mono reg X ctxf f1 (Nat.max f1 f2) (Nat.le_max_l _ _) false t bs) as [E|E]; [contradiction|].
  destruct (decode_mono reg X ctxf f2 (Nat.max f1 f2) (Nat.le_max_r _ _) false t bs) as [E'|E']; [contradiction|]. congruence.
Qed.
Print Assumptions C21_fuel_irrelevant.

(** An error means that no prefix of the input is an encoding. *)
Theorem C21_errors_are_justified : forall TId C (reg : TId -> resolution TId) X (ctxf : TId -> C) fuel t bs e, is_bytes bs ->
  decode_as_type reg X ctxf fuel t bs = Err e -> e <> EHang ->
  ~ exists v pre r, bs = pre ++ r /\ enc reg (x_maxbits X) (x_len X) ctxf PU256 false false t v pre.
Proof.
  intros TId C reg X ctxf fuel t bs e HB H He (v & pre & r & E). 
  assert (D : decodes reg X ctxf t bs v r) by (apply C21_decode_iff_encoding; eauto). destruct D as [f' H'].
  assert (EQ : decode_as_type reg X ctxf fuel t bs = decode_as_type reg X ctxf f' t bs) by (apply C21_fuel_irrelevant; congruence). congruence.
Qed.
Print Assumptions C21_errors_are_justified.

Example C21_struct : decodes demo xdemo (fun t => t) 4%nat [7; 8; 1; 2; 99]
  (Val (DComposite (Named [(s2l "a", Val (DPrim (PU128 7)) 0%nat);
                           (s2l "b", Val (DComposite (Unnamed [Val (DPrim (PU128 1)) 0%nat; Val (DPrim (PU128 2)) 0%nat])) 5%nat)])) 4%nat) [99].
Proof. exists 5%nat. reflexivity. Qed.
Example C21_enum : decodes demo xdemo (fun _ => tt) 6%nat [5; 1; 4; 9] (named_variant (s2l "B") [(s2l "x", vbool true); (s2l "y", unnamed_composite [vu128 9])]) [].
Proof. exists 5%nat. reflexivity. Qed.
Example C21_compact_newtype : decodes demo xdemo (fun _ => tt) 18%nat [0x02; 0x09; 0x3d; 0x00; 1] (named_composite [(s2l "id", vu128 1000000)]) [1].
Proof. exists 5%nat. reflexivity. Qed.
Example C21_bits : decodes demo xdemo (fun _ => tt) 29%nat [12; 0; 0xA0] (bit_sequence [true; false; true]) [].
Proof. exists 5%nat. reflexivity. Qed.
Example C21_bad_bool : decode_as_type demo xdemo (fun _ => tt) 5 2%nat [2] = Err ECodec. Proof. reflexivity. Qed.
Example C21_non_minimal_compact : decode_as_type demo xdemo (fun _ => tt) 5 7%nat [1; 0] = Err ECodec. Proof. reflexivity. Qed.

(** ** C22 *)
Theorem C22_decode_is_local : forall TId C (reg : TId -> resolution TId) X (ctxf : TId -> C) t bs v r, is_bytes bs ->
  decodes reg X ctxf t bs v r -> exists pre, bs = pre ++ r /\ forall r', decodes reg X ctxf t (pre ++ r') v r'.
Proof.
  intros TId C reg X ctxf t bs v r HB H. apply C21_decode_iff_encoding in H as (pre & -> & E); [|exact HB]. exists pre. split; [reflexivity|].
  intro r'. apply (decode_complete reg X ctxf false) in E as [f0 H]. exists f0. apply H. lia.
Qed.
Print Assumptions C22_decode_is_local.
Example C22_local : exists v, decodes demo xdemo (fun _ => tt) 9%nat ([3; 1] ++ []) v [] /\ decodes demo xdemo (fun _ => tt) 9%nat ([3; 1] ++ [7; 7]) v [7; 7].
Proof. eexists. split; exists 3%nat; reflexivity. Qed.

(** ** C23 *)
Theorem C23_prefix_free : forall TId C (reg : TId -> resolution TId) X (ctxf : TId -> C) t v1 v2 b1 b2 r1 r2,
  enc reg (x_maxbits X) (x_len X) ctxf PU256 false false t v1 b1 -> enc reg (x_maxbits X) (x_len X) ctxf PU256 false false t v2 b2 -> b1 ++ r1 = b2 ++ r2 ->
  v1 = v2 /\ b1 = b2 /\ r1 = r2.
Proof.
  intros TId C reg X ctxf t v1 v2 b1 b2 r1 r2 E1 E2 EQ. apply (decode_complete reg X ctxf false) in E1 as [f1 H1]. apply (decode_complete reg X ctxf false) in E2 as [f2 H2].
  specialize (H1 (Nat.max f1 f2) ltac:(lia) r1). specialize (H2 (Nat.max f1 f2) ltac:(lia) r2). rewrite EQ in H1.
  assert (r1 = r2 /\ v1 = v2) as [-> ->] by (split; congruence). split; [reflexivity|]. split; [|reflexivity]. eapply app_inv_tail; exact EQ.
Qed.
Print Assumptions C23_prefix_free.

(** In the other direction a value has only one encoding, if padding bits are zero and variant names differ. *)
Theorem C23_unique_encoding : forall TId C (reg : TId -> resolution TId) mb lb (ctxf : TId -> C) t v b1 b2, variant_names_differ reg ->
  enc reg mb lb ctxf PU256 true false t v b1 -> enc reg mb lb ctxf PU256 true false t v b2 -> b1 = b2.
Proof. intros TId C reg mb lb ctxf t v b1 b2 ND E1 E2. exact (proj1 (enc_unique_mut reg mb lb ctxf ND) _ _ _ _ E2 _ E1). Qed.
Print Assumptions C23_unique_encoding.
Example C23_demo_names : variant_names_differ demo.
Proof.
  intros t vs H. do 31 (destruct t as [|t]; [try discriminate H; try (injection H as <-; cbn; repeat constructor; cbn; intuition discriminate)|]). discriminate.
Qed.
(** Two paddings of the same bits. *)
Example C23_padding_alias : decodes demo xdemo (fun _ => tt) 10%nat [4; 1] (bit_sequence [true]) [] /\ decodes demo xdemo (fun _ => tt) 10%nat [4; 3] (bit_sequence [true]) [].
Proof. split; exists 2%nat; reflexivity. Qed.

(** ** C29 *)
Theorem C29_contexts_are_type_ids : forall TId (reg : TId -> resolution TId) X t bs v r, is_bytes bs ->
  decodes reg X (fun t => t) t bs v r -> labelled reg t v.
Proof.
  intros TId reg X t bs v r HB H. apply C21_decode_iff_encoding in H as (pre & _ & E); [|exact HB].
  exact (proj1 (enc_labelled_mut reg _ _ _ _) _ _ _ _ E).
Qed.
Print Assumptions C29_contexts_are_type_ids.

(** Decoding [Value<()>] is decoding with type ids and then [remove_context]; results, errors and unread bytes are the same. *)
Theorem C29_plain_is_remove_context : forall TId (reg : TId -> resolution TId) X fuel t bs,
  decode_as_type reg X (fun _ => tt) fuel t bs =
  match decode_as_type reg X (fun t => t) fuel t bs with Ok (v, r) => Ok (remove_context v, r) | Err e => Err e end.
Proof.
  intros TId reg X fuel t bs. unfold decode_as_type. rewrite (decode_map_ctx reg X (fun t => t) (fun _ => tt)).
  destruct (decode reg X (fun t0 : TId => t0) fuel false t bs) as [[v r]|e]; reflexivity.
Qed.
Print Assumptions C29_plain_is_remove_context.
(** The id behind a [Compact] is that of the inner type, not of the [Compact] itself. *)
Example C29_compact_label : decodes demo xdemo (fun t => t) 7%nat [20] (Val (DPrim (PU128 5)) 1%nat) [] /\ labelled demo 7%nat (Val (DPrim (PU128 5)) 1%nat).
Proof.
  split; [exists 3%nat; reflexivity|]. apply (L_node demo 7%nat 1%nat); [eapply BC_step; [reflexivity|constructor]|eapply L_prim; reflexivity].
Qed.

(** ** C36 *)
Theorem C36_fields_iff_encoding : forall TId C (reg : TId -> resolution TId) X (ctxf : TId -> C) fs bs cmp r, is_bytes bs ->
  ((exists fuel, decode_as_fields reg X ctxf fuel fs bs = Ok (cmp, r)) <->
   exists vs pre, bs = pre ++ r /\ encs reg (x_maxbits X) (x_len X) ctxf PU256 false false (map snd fs) vs pre /\ fields_shape (map fst fs) vs cmp).
Proof.
  intros TId C reg X ctxf fs bs cmp r HB. unfold decode_as_fields. split.
  - intros [fuel H]. apply visit_composite_iff in H as (vs & H & Sh). apply (decode_items_sound reg X ctxf _ false) in H as (pre & -> & E); eauto.
    intros; eapply decode_sound; eauto.
  - intros (vs & pre & -> & E & Sh). apply (proj2 (decode_complete_mut reg X ctxf false)) in E as [f0 H]. exists f0. apply visit_composite_iff.
    exists vs. split; [apply H; lia|exact Sh].
Qed.
Print Assumptions C36_fields_iff_encoding.

(** The same composite and unread bytes as for a struct type with these fields. *)
Theorem C36_fields_as_struct : forall TId C (reg : TId -> resolution TId) X (ctxf : TId -> C) t fs bs cmp r, is_bytes bs -> reg t = ResTy (TComposite fs) ->
  ((exists fuel, decode_as_fields reg X ctxf fuel fs bs = Ok (cmp, r)) <-> decodes reg X ctxf t bs (Val (DComposite cmp) (ctxf t)) r).
Proof.
  intros TId C reg X ctxf t fs bs cmp r HB R. rewrite C36_fields_iff_encoding, C21_decode_iff_encoding by exact HB. split.
  - intros (vs & pre & -> & E & Sh). exists pre. split; [reflexivity|]. eapply E_composite; eauto. discriminate.
  - intros (pre & -> & E). inversion E; subst; try congruence. assert (fs0 = fs) by congruence. subst. eauto.
Qed.
Print Assumptions C36_fields_as_struct.
(** Reading the fields straight into a [Value]: the value a struct type with these fields gives, and the same bytes left over;
    whatever does not decode as such a struct does not decode this way either. *)
Theorem C36_value_as_struct : forall TId C (reg : TId -> resolution TId) X (ctxf : TId -> C) t fs bs v r, is_bytes bs -> reg t = ResTy (TComposite fs) ->
  ((exists fuel, decode_value_as_fields reg X ctxf (ctxf t) fuel fs bs = Ok (v, r)) <-> decodes reg X ctxf t bs v r).
Proof.
  intros TId C reg X ctxf t fs bs v r HB R. unfold decode_value_as_fields. split.
  - intros [fuel H]. destruct (decode_as_fields reg X ctxf fuel fs bs) as [[cmp r']|e] eqn:E; [|discriminate]. injection H as <- <-.
    apply (C36_fields_as_struct _ _ reg X ctxf t fs bs cmp r' HB R). eauto.
  - intros D. pose proof D as D'. apply C21_decode_iff_encoding in D' as (pre & _ & E); [|exact HB].
    inversion E; subst; try congruence. apply (C36_fields_as_struct _ _ reg X ctxf t fs bs _ r HB R) in D as [fuel D].
    exists fuel. rewrite D. reflexivity.
Qed.
Print Assumptions C36_value_as_struct.
Example C36_value : decode_value_as_fields demo xdemo (fun _ => tt) tt 3 [(nm "a", 0%nat); (nm "b", 5%nat)] [9; 4; 1; 5] =
  Ok (named_composite [(s2l "a", vu128 9); (s2l "b", unnamed_composite [vu128 1])], [5]).
Proof. reflexivity. Qed.
(** Mixed names make an unnamed composite, also for fields. *)
Example C36_mixed : decode_as_fields demo xdemo (fun _ => tt) 3 [(nm "a", 0%nat); (None, 2%nat)] [9; 1; 5] = Ok (Unnamed [vu128 9; vbool true], [5]).
Proof. reflexivity. Qed.
Example C36_named : decode_as_fields demo xdemo (fun _ => tt) 3 [(nm "a", 0%nat); (nm "b", 2%nat)] [9; 1; 5] = Ok (Named [(s2l "a", vu128 9); (s2l "b", vbool true)], [5]).
Proof. reflexivity. Qed.

(** ** C48 *)
Theorem C48_decode_terminates : forall TId C (reg : TId -> resolution TId) X (ctxf : TId -> C), (forall t, Acc (inside reg) t) ->
  forall t bs, is_bytes bs -> exists fuel, decode_as_type reg X ctxf fuel t bs <> Err EHang.
Proof. intros TId C reg X ctxf WF t bs HB. apply decode_terminates; assumption. Qed.
Print Assumptions C48_decode_terminates.
(** A type that begins with itself is never decoded, whatever the input. *)
Theorem C48_decode_loops : forall TId C (reg : TId -> resolution TId) X (ctxf : TId -> C) (S : TId -> Prop),
  (forall t, S t -> exists t', first_in reg t' t /\ S t') -> forall t bs, S t -> forall fuel, decode_as_type reg X ctxf fuel t bs = Err EHang.
Proof. intros TId C reg X ctxf S H t bs Ht fuel. unfold decode_as_type. eapply decode_hangs; eauto. Qed.
Print Assumptions C48_decode_loops.
Example C48_loop : forall bs fuel, decode_as_type demo xdemo (fun _ => tt) fuel 15%nat bs = Err EHang.
Proof.
  intros bs fuel. apply (C48_decode_loops _ _ demo xdemo (fun _ => tt) (fun t => t = 15%nat)); [|reflexivity].
  intros t ->. exists 15%nat. split; [eapply F_field; reflexivity|reflexivity].
Qed.
(** A recursive type behind a sequence is fine: struct Tree { kids: Vec<Tree> }. *)
Definition tree (t : nat) : resolution nat :=
  match t with 0%nat => ResTy (TComposite [(nm "kids", 1%nat)]) | 1%nat => ResTy (TSequence 0%nat) | _ => ResNotFound end.
Example C48_tree : forall t, Acc (inside tree) t.
Proof.
  assert (B : forall t, t <> 0%nat -> Acc (inside tree) t).
  { intros t Ht. constructor. intros u H. inversion H as [? fs ? ? R|? ts ? R|? ? ? R|? ? R]; subst; destruct t as [|[|t]]; try discriminate; contradiction. }
  intros [|t]; [|apply B; discriminate]. constructor. intros u H. inversion H as [? fs ? ? R Hin|? ts ? R|? ? ? R|? ? R]; subst; try discriminate.
  injection R as <-. destruct Hin as [[= _ <-]|[]]. apply B. discriminate.
Qed.

(** ** C30 *)
(** Whenever the tracing decoder succeeds the plain one does, with the same value up to the I256 tag; whenever it fails so does the plain
    one (with the same cause), unless more than 100,000,000 children are involved. *)
Theorem C30_trace_agrees : forall TId (reg : TId -> resolution TId) X fuel t bs,
  match trace_as_type reg X fuel t bs with
  | Ok (v, r) => decode_as_type reg X (fun t => t) fuel t bs = Ok (untag v, r)
  | Err e => match cause_of e with
             | CDecode d => decode_as_type reg X (fun t => t) fuel t bs = Err d
             | CCapacity => forall v r, decode_as_type reg X (fun t => t) fuel t bs = Ok (v, r) -> ~ within 100000000 v
             end
  end.
Proof. intros TId reg X fuel t bs. exact (trace_agrees reg X fuel [] false t bs). Qed.
Print Assumptions C30_trace_agrees.

(** The same, from the side of the plain decoder. *)
Theorem C30_plain_agrees : forall TId (reg : TId -> resolution TId) X fuel t bs,
  match decode_as_type reg X (fun t => t) fuel t bs with
  | Ok (v, r) => within 100000000 v -> exists v', trace_as_type reg X fuel t bs = Ok (v', r) /\ untag v' = v
  | Err e => exists e', trace_as_type reg X fuel t bs = Err e'
  end.
Proof.
  intros TId reg X fuel t bs. pose proof (C30_trace_agrees TId reg X fuel t bs) as H.
  destruct (trace_as_type reg X fuel t bs) as [[v r]|e]; [rewrite H; eauto|].
  destruct (decode_as_type reg X (fun t => t) fuel t bs) as [[v r]|e']; [|eauto]. intro W. exfalso.
  destruct (cause_of e); [discriminate|]. exact (H v r eq_refl W).
Qed.
Print Assumptions C30_plain_agrees.

(** In a registry without i256 the values are equal. *)
Lemma untag_id {TId} (reg : TId -> resolution TId) mb lb (no : forall t, reg t <> ResTy (TPrim PtI256)) :
  (forall c t v bs, enc reg mb lb (fun t => t) PI256 false c t v bs -> untag v = v) /\
  (forall c ts vs bs, encs reg mb lb (fun t => t) PI256 false c ts vs bs -> map untag vs = vs).
Proof.
  assert (Sh : forall names (vs : list (value TId)) cmp, fields_shape names vs cmp -> map untag vs = vs -> composite_map untag cmp = cmp).
  { intros names vs cmp S E. inversion S; subst; cbn [composite_map]; [|rewrite E; reflexivity]. f_equal.
    clear -E. induction kvs as [|[k v] kvs IH]; [reflexivity|]. cbn [map fst snd] in *. injection E as E1 E2. rewrite E1, (IH E2). reflexivity. }
  apply enc_encs_ind; try (intros; cbn [untag]; try reflexivity).
  - inversion H0; subst; try reflexivity. exfalso. apply (no t). assumption.
  - assumption.
  - erewrite Sh; eauto.
  - cbn [composite_map]. rewrite H2. reflexivity.
  - erewrite Sh; eauto.
  - cbn [composite_map]. rewrite H3. reflexivity.
  - cbn [composite_map]. rewrite H2. reflexivity.
  - cbn [map]. congruence.
Qed.
Theorem C30_same_value_without_i256 : forall TId (reg : TId -> resolution TId) X fuel t bs v r, is_bytes bs -> (forall t, reg t <> ResTy (TPrim PtI256)) ->
  trace_as_type reg X fuel t bs = Ok (v, r) -> decode_as_type reg X (fun t => t) fuel t bs = Ok (v, r).
Proof.
  intros TId reg X fuel t bs v r HB no H. pose proof (C30_trace_agrees TId reg X fuel t bs) as A. rewrite H in A. rewrite A.
  apply trace_sound in H as (pre & _ & E); [|exact HB]. rewrite (proj1 (untag_id reg (x_maxbits X) (x_len X) no) _ _ _ _ E). reflexivity.
Qed.
Print Assumptions C30_same_value_without_i256.

(** The unrestricted claim is false: an i256 is tagged differently ... *)
Theorem C30_i256_refuted : exists TId (reg : TId -> resolution TId) X fuel t bs v1 v2, is_bytes bs /\
  decode_as_type reg X (fun t => t) fuel t bs = Ok (v1, []) /\ trace_as_type reg X fuel t bs = Ok (v2, []) /\ v1 <> v2.
Proof.
  exists nat, demo, xdemo, 2%nat, 14%nat, (repeat 1 32), (Val (DPrim (PU256 (repeat 1 32))) 14%nat), (Val (DPrim (PI256 (repeat 1 32))) 14%nat).
  split; [repeat constructor|]. split; [reflexivity|]. split; [reflexivity|discriminate].
Qed.
Print Assumptions C30_i256_refuted.

(** ... and beyond the capacity limit only the tracing decoder fails: a Vec<()> with 100,000,001 elements. *)
Lemma unit_items X f n : decode_items (decode demo X (fun t => t) (S f) false) (repeat 21%nat n) [] =
  Ok (repeat (Val (DComposite (Unnamed [])) 21%nat) n, []).
Proof. induction n as [|n IH]; [reflexivity|]. cbn [repeat decode_items]. change (decode demo X (fun t => t) (S f) false 21%nat []) with (Ok (E:=derr) (Val (DComposite (Unnamed [])) 21%nat, @nil N)). cbn [bind snd]. rewrite IH. reflexivity. Qed.
Theorem C30_capacity_refuted : exists TId (reg : TId -> resolution TId) X fuel t bs v e, is_bytes bs /\
  decode_as_type reg X (fun t => t) fuel t bs = Ok (v, []) /\ trace_as_type reg X fuel t bs = Err e.
Proof.
  exists nat, demo, xdemo, 3%nat, 22%nat, [6; 132; 215; 23]. eexists. eexists. split; [repeat constructor|].
  assert (CD : compact_decode 64 [6; 132; 215; 23] = Ok (100000001, [])) by (vm_compute; reflexivity). split.
  - change (decode_as_type demo xdemo (fun t => t) 3 22%nat [6; 132; 215; 23]) with
      (bind (compact_decode 64 [6; 132; 215; 23]) (fun x => to_unnamed (fun t => t) (decode demo xdemo (fun t => t) 2 false) 22%nat (repeat 21%nat (N.to_nat (fst x))) (snd x))).
    rewrite CD. cbn [bind fst snd]. unfold to_unnamed. rewrite unit_items. cbn [bind fst snd]. reflexivity.
  - change (trace_as_type demo xdemo 3 22%nat [6; 132; 215; 23]) with
      (match compact_decode 64 [6; 132; 215; 23] with
       | Err e => Err (FromDecode (CDecode e))
       | Ok (n, r) => wrap_composite 22%nat (to_unnamed_composite (fun p => trace demo xdemo 2 p false) [] n (repeat 21%nat (N.to_nat n)) r)
       end).
    rewrite CD. unfold to_unnamed_composite. replace (MAX_CAPACITY <? 100000001) with true by (vm_compute; reflexivity). reflexivity.
Qed.
Print Assumptions C30_capacity_refuted.
Example C30_enum_trace : trace_as_type demo xdemo 5 23%nat [0; 4; 9; 1] =
  Ok (Val (DComposite (Named [(s2l "e", Val (DVariant (s2l "A") (Unnamed [Val (DPrim (PU128 4)) 0%nat])) 6%nat);
                              (s2l "t", Val (DComposite (Unnamed [Val (DPrim (PU128 9)) 0%nat; Val (DPrim (PBool true)) 2%nat])) 9%nat)])) 23%nat, []).
Proof. reflexivity. Qed.

(** ** C49 *)
(** A located error names the item at which decoding failed: its path leads there (variant names excluded), the value holds exactly what
    was decoded up to there, and decoding that item from the byte reached fails by itself with the reported cause. *)
Theorem C49_trace_error_location : forall TId (reg : TId -> resolution TId) X fuel t bs at_ v e, is_bytes bs -> variants_within reg 100000000 ->
  trace_as_type reg X fuel t bs = Err (FromVisitor at_ v e) ->
  exists pre rest c' t', bs = pre ++ rest /\ located reg (x_maxbits X) (x_len X) false t at_ v pre c' t' /\
    exists fuel' path', trace reg X fuel' path' c' t' rest = Err (FromDecode e).
Proof.
  intros TId reg X fuel t bs a v e HB VW H. unfold trace_as_type in H.
  apply trace_located in H as (rel & pre & rest & c' & t' & f' & -> & -> & LO & TR); [|exact VW|exact HB]. cbn [app] in *. eauto 10.
Qed.
Print Assumptions C49_trace_error_location.

(** [Vec<struct { e: enum, t: (u8, bool) }>]: the second element's enum has a bad boolean in field x of variant B. *)
Example C49_location : trace_as_type demo xdemo 6 26%nat [8; 0; 4; 9; 1; 5; 7] =
  Err (FromVisitor [SIndex 1; SField (s2l "e"); SField (s2l "x")]
    (Val (DComposite (Unnamed [
       Val (DComposite (Named [(s2l "e", Val (DVariant (s2l "A") (Unnamed [Val (DPrim (PU128 4)) 0%nat])) 6%nat);
                               (s2l "t", Val (DComposite (Unnamed [Val (DPrim (PU128 9)) 0%nat; Val (DPrim (PBool true)) 2%nat])) 9%nat)])) 23%nat;
       Val (DComposite (Named [(s2l "e", Val (DVariant (s2l "B") (Named [])) 6%nat)])) 23%nat])) 26%nat) (CDecode ECodec)).
Proof. reflexivity. Qed.
Example C49_demo_variants : variants_within demo 100000000.
Proof.
  intros t vs v H Hin. do 31 (destruct t as [|t]; [try discriminate H; try (injection H as <-; destruct Hin as [<-|[<-|[]]]; discriminate)|]). discriminate.
Qed.
(** The path does not tell in which variant the failing field is: the claim that every step of the decoded value shows up is false. *)
Theorem C49_variant_segment_refuted : exists TId (reg : TId -> resolution TId) X fuel t bs name fs ctx e, is_bytes bs /\
  trace_as_type reg X fuel t bs = Err (FromVisitor [SField (s2l "x")] (Val (DVariant name fs) ctx) e).
Proof.
  exists nat, demo, xdemo, 4%nat, 6%nat, [5; 7]. do 4 eexists. split; [repeat constructor|reflexivity].
Qed.
Print Assumptions C49_variant_segment_refuted.
