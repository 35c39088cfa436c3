(** * TraceErrFacts: what a trace error says about the item it points to is the case there. *)
From Verif Require Import Base Value Registry Spec_Scale Scale ScaleFacts Decode DecodeFacts Trace Spec_Trace TraceFacts Spec_DecodeErrors DecodeErrFacts.
Open Scope N_scope.

Lemma prim_err' lenbits c p bs e : is_bytes bs -> read_prim lenbits PI256 c p bs = Err e -> wrong_prim lenbits c p bs e.
Proof.
  intros HB H. apply prim_err; [exact HB|]. destruct p as [| | |w|w| |]; destruct c; cbn [read_prim] in *; try exact H.
  apply bind_err in H as [H|(x & _ & H)]; [|discriminate]. apply bind_err. left. exact H.
Qed.

Section TraceErr.
  Context {TId : Type} (reg : TId -> resolution TId) (X : ext).
  Local Notation bad := (wrong reg (x_maxbits X) (x_len X)).

  Lemma lift_err {A V} (r : dres A) (e : cause) : lift (V := V) r = Err (FromDecode e) -> exists d, e = CDecode d /\ r = Err d.
  Proof. destruct r; cbn [lift]; [discriminate|]. intros [= <-]. eauto. Qed.

  Lemma unnamed_loop_located item path ts : forall idx vals bs e, unnamed_loop item path idx vals ts bs <> Err (FromDecode (V := composite (value TId)) e).
  Proof.
    induction ts as [|t ts IH]; intros idx vals bs e; cbn [unnamed_loop]; [discriminate|].
    destruct (item _ t bs) as [[v b]|[d|a v d]]; cbn [with_outer]; [apply IH|discriminate|discriminate].
  Qed.
  Lemma named_loop_located item path fs : forall vals bs e, named_loop item path vals fs bs <> Err (FromDecode (V := composite (value TId)) e).
  Proof.
    induction fs as [|[n t] fs IH]; intros vals bs e; cbn [named_loop]; [discriminate|]. cbv zeta.
    destruct (item _ t bs) as [[v b]|[d|a v d]]; cbn [with_outer]; [apply IH|discriminate|discriminate].
  Qed.
  Lemma wrap_err t r e : wrap_composite (TId := TId) t r = Err (FromDecode e) -> r = Err (FromDecode e).
  Proof. destruct r as [[c b]|[d|a v d]]; cbn [wrap_composite map_so_far]; try discriminate. intros [= <-]. reflexivity. Qed.
  Lemma unnamed_err item path n ts bs e : to_unnamed_composite (TId := TId) item path n ts bs = Err (FromDecode e) -> e = CCapacity /\ MAX_CAPACITY < n.
  Proof.
    unfold to_unnamed_composite. destruct (N.ltb_spec MAX_CAPACITY n) as [L|L]; [intros [= <-]; auto|]. intro H. exfalso. exact (unnamed_loop_located _ _ _ _ _ _ _ H).
  Qed.
  Lemma fields_err item path fs bs e : trace_composite (TId := TId) item path fs bs = Err (FromDecode e) ->
    e = CCapacity /\ MAX_CAPACITY < N.of_nat (length fs) /\ In None (map fst fs).
  Proof.
    unfold trace_composite. destruct (_ && _) eqn:EN; intro H; [exfalso; exact (named_loop_located _ _ _ _ _ _ H)|].
    apply unnamed_err in H as [-> L]. split; [reflexivity|]. split; [exact L|].
    destruct (0 <? length fs)%nat eqn:E0; [|apply Nat.ltb_ge in E0; lia]. cbn [andb] in EN. apply negb_false_iff in EN.
    unfold has_unnamed in EN. apply existsb_exists in EN as ([o t] & HI & HN). cbn [fst] in HN. destruct o; [discriminate|]. apply in_map_iff. exists (None, t). auto.
  Qed.

  Lemma here_err : forall fuel path c t bs e, is_bytes bs -> trace reg X fuel path c t bs = Err (FromDecode e) -> e <> CDecode EHang ->
    exists c' t', behind_compact reg c t c' t' /\
      match e with CDecode d => bad c' t' bs d | CCapacity => crowded reg (x_len X) 100000000 t' bs end.
  Proof.
    induction fuel as [|f IH]; intros path c t bs e HB H HE; [injection H as <-; contradiction|]. cbn [trace] in H.
    destruct (reg t) as [| |[fs|vs|t'|t' n|ts|p|t'|st o]] eqn:R.
    1-8,10: exists c, t; split; [constructor|].
    - injection H as <-. now constructor.
    - injection H as <-. now constructor.
    - destruct (c && negb (length fs =? 1)%nat) eqn:EC.
      + injection H as <-. apply andb_prop in EC as [-> EC]. apply negb_true_iff, Nat.eqb_neq in EC. eapply Wr_not_compact; [exact R|exact EC].
      + apply wrap_err, fields_err in H as (-> & L & HI). eapply Cr_composite; eassumption.
    - destruct c; [injection H as <-; eapply Wr_not_compact; [exact R|exact I]|].
      destruct bs as [|idx bs]; [injection H as <-; eapply Wr_variant_short; exact R|].
      destruct (find (fun v0 => vi_index v0 =? idx) vs) as [v|] eqn:FD.
      + destruct (trace_composite _ _ _ _) as [[cm r]|[d|a x d]]; cbn [with_outer] in H; discriminate.
      + injection H as <-. eapply Wr_variant; [exact R|]. intro HI. apply in_map_iff in HI as (v & E & HI).
        pose proof (find_none _ _ FD v HI) as FN. cbn in FN. rewrite E, N.eqb_refl in FN. discriminate.
    - destruct c; [injection H as <-; eapply Wr_not_compact; [exact R|exact I]|].
      destruct (compact_decode (x_len X) bs) as [[n r]|d] eqn:D.
      + apply wrap_err, unnamed_err in H as [-> L]. apply compact_decode_sound in D as (pre & -> & HC & L'); [|exact HB]. eapply Cr_sequence; eassumption.
      + injection H as <-. apply compact_err in D as [[-> H]|[-> H]]; [eapply Wr_sequence_short|eapply Wr_sequence|]; eassumption.
    - destruct c; [injection H as <-; eapply Wr_not_compact; [exact R|exact I]|].
      apply wrap_err, unnamed_err in H as [-> L]. eapply Cr_array; eassumption.
    - destruct (c && negb (length ts =? 1)%nat) eqn:EC.
      + injection H as <-. apply andb_prop in EC as [-> EC]. apply negb_true_iff, Nat.eqb_neq in EC. eapply Wr_not_compact; [exact R|exact EC].
      + apply wrap_err, unnamed_err in H as [-> L]. eapply Cr_tuple; eassumption.
    - apply lift_err in H as (d & -> & H). apply bind_err in H as [H|(x & _ & H)]; [|discriminate]. eapply Wr_prim; [exact R|]. apply prim_err'; assumption.
    - destruct c; [injection H as <-; eapply Wr_not_compact; [exact R|exact I]|].
      apply lift_err in H as (d & -> & H). apply bind_err in H as [H|(x & _ & H)]; [|discriminate]. unfold decode_bits in H. apply bind_err in H as [H|([n b] & D & H)].
      + apply compact_err in H as [[-> H]|[-> H]]; [eapply Wr_bits_prefix_short|eapply Wr_bits_prefix|]; eassumption.
      + cbn [fst snd] in H. cbv zeta in H. apply compact_decode_sound in D as (pre & -> & HC & L); [|exact HB].
        destruct (N.ltb_spec (x_maxbits X) n) as [M|M]; [injection H as <-; eapply Wr_bits_many; eassumption|].
        apply bind_err in H as [H|(x & _ & H)]; [|discriminate]. apply take_err in H as [-> L']. eapply Wr_bits_short; try eassumption.
    - apply IH in H as (c' & t2 & B & W); [|exact HB|exact HE]. exists c', t2. split; [|exact W]. eapply Bc_compact; eassumption.
  Qed.
End TraceErr.
