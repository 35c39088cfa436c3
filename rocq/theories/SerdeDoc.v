(** * SerdeDoc: values through a lossless self-describing format; idempotence of [flatten]. *)
From Verif Require Import Base Value Spec_Value ValueFacts Scale Serde SerdeFacts Spec_Serde SerdeRt SerdeUni SerdeMore SerdeTargets SerdeTargets2.

Lemma child_no_reserved {T} (v c : value T) : no_reserved_key v -> In c (fields_of v) -> no_reserved_key c.
Proof. intros H Hc path k w l ctx. apply In_nth_error in Hc as [i Hi]. specialize (H (i :: path) k w l ctx). cbn [node_at] in H. rewrite Hi in H. exact H. Qed.
Lemma child_no_reserved_v {T} (v c : value T) : no_reserved_key_in_variants v -> In c (fields_of v) -> no_reserved_key_in_variants c.
Proof. intros H Hc path n k w l ctx. apply In_nth_error in Hc as [i Hi]. specialize (H (i :: path) n k w l ctx). cbn [node_at] in H. rewrite Hi in H. exact H. Qed.

Lemma to_doc_map1 (l : list (str * sd)) (ds : list (str * doc)) :
  Forall2 (fun x d => fst d = fst x /\ to_doc (snd x) = Some (snd d)) l ds -> to_doc (SMap (map (fun kv => (SStr (fst kv), snd kv)) l)) = Some (FMap ds).
Proof.
  intro H. replace (map (fun kv => (SStr (fst kv), snd kv)) l) with (map (fun kv => match kv with (k, v) => (SStr k, (fun x => x) v) end) l) by (apply map_ext; intros [k v]; reflexivity).
  apply (doc_go_map (fun x => x)). exact H.
Qed.

Theorem doc_any {T U} (v : value T) : no_reserved_key v -> no_reserved_key_in_variants v ->
  exists d, to_doc (ser_value v) = Some d /\ de_value (SrcDoc (T := U) d) = Ok (doc_read v).
Proof.
  induction v as [d ctx IH] using value_ind'. intros HK HN.
  assert (HI : Forall (fun v => exists d, to_doc (ser_value v) = Some d /\ de_value (SrcDoc (T := U) d) = Ok (doc_read v)) (children d)).
  { rewrite Forall_forall in *. intros x Hx. assert (HF : In x (fields_of (Val d ctx))) by (rewrite fields_children; exact Hx).
    apply IH; [exact Hx|eapply child_no_reserved; eassumption|eapply child_no_reserved_v; eassumption]. }
  destruct d as [c|n c|b|p]; cbn [ser_value children] in *.
  - destruct (doc_composite doc_read c HI) as (d & H1 & _ & H2). exists d. split; [exact H1|]. apply H2.
    destruct c as [[|[k x] l]|l]; try exact I. exact (HK [] k x l ctx eq_refl).
  - destruct (doc_composite doc_read c HI) as (d & H1 & _ & H2). exists (FMap [(s2l "name", FStr n); (s2l "values", d)]). split.
    + apply (to_doc_map1 [(s2l "name", SStr n); (s2l "values", ser_composite c)]). constructor; [split; reflexivity|]. constructor; [split; [reflexivity|exact H1]|constructor].
    + assert (HV : de_value (SrcDoc (T := U) d) = Ok (Val (DComposite (composite_map doc_read c)) tt)).
      { apply H2. destruct c as [[|[k x] l]|l]; try exact I. exact (HN [] n k x l ctx eq_refl). }
      rewrite de_value_unfold. cbn [any_of doc_de visit_valuedef map fst snd]. rewrite visit_map_plain by reflexivity. cbn [mapM fst snd]. rewrite HV. reflexivity.
  - exists (FMap [(bitvec_key, FSeq (map FBool b))]). split.
    + apply (to_doc_map1 [(bitvec_key, SSeq (map SBool b))]). constructor; [|constructor]. split; [reflexivity|]. cbn [snd]. apply doc_go_seq. clear. induction b; cbn [map]; constructor; [reflexivity|assumption].
    + rewrite de_value_unfold. cbn [any_of doc_de visit_valuedef map fst snd visit_map_or_bits]. rewrite str_eqb_refl.
      cbn [deserialize doc_de bind visit_vec]. rewrite map_map, mapM_map. rewrite (mapM_total _ (fun x => x)); [rewrite map_id; reflexivity|]. reflexivity.
  - destruct (doc_prim p) as (d & H1 & H2). exists d. split; [exact H1|]. rewrite H2. destruct p; reflexivity.
Qed.

(** A [Variant] comes back as the same variant (its fields as above). *)
Theorem doc_variant {T U} n (c : composite (value T)) : Forall (fun v => no_reserved_key v /\ no_reserved_key_in_variants v) (values c) ->
  exists d, to_doc (ser_variant n c) = Some d /\ de_variant (SrcDoc (T := U) d) = Ok (n, composite_map doc_read c).
Proof.
  intro H. destruct (doc_composite (U := U) doc_read c) as (d & H1 & H2 & _).
  { rewrite Forall_forall in *. intros v Hv. destruct (H v Hv). apply doc_any; assumption. }
  exists (FMap [(s2l "name", FStr n); (s2l "values", d)]). split.
  - apply (to_doc_map1 [(s2l "name", SStr n); (s2l "values", ser_composite c)]). constructor; [split; reflexivity|]. constructor; [split; [reflexivity|exact H1]|constructor].
  - unfold de_variant. rewrite deserialize_any_ok. cbn [bind any_of doc_de map fst snd visit_variant variant_fields].
    change (str_eqb (s2l "name") (s2l "name")) with true. change (str_eqb (s2l "values") (s2l "name")) with false. change (str_eqb (s2l "values") (s2l "values")) with true.
    unfold de_string. cbn [deserialize doc_de bind visit_string]. change (de_composite_with de_value (SrcDoc (T := U) d)) with (de_composite (SrcDoc (T := U) d)). rewrite H2. reflexivity.
Qed.

Lemma flatten_idem {T} (v : value T) : flatten (flatten v) = flatten v.
Proof.
  induction v as [d ctx IH] using value_ind'. rewrite Forall_forall in IH.
  assert (HC : forall c : composite (value T), (forall x, In x (values c) -> flatten (flatten x) = flatten x) -> composite_map flatten (composite_map flatten c) = composite_map flatten c).
  { intros [l|l] H; cbn [composite_map values] in *; f_equal; rewrite map_map; apply map_ext_in.
    - intros [k x] Hx. cbn [fst snd]. rewrite H; [reflexivity|]. apply (in_map snd) in Hx. exact Hx.
    - intros x Hx. apply H. exact Hx. }
  destruct d as [c|n c|b|p]; cbn [flatten].
  - rewrite HC; [reflexivity|exact IH].
  - unfold named_composite. cbn [flatten composite_map map fst snd]. rewrite HC; [reflexivity|exact IH].
  - unfold named_composite, unnamed_composite. cbn [flatten composite_map map fst snd]. rewrite map_map. reflexivity.
  - destruct p; try reflexivity; unfold unnamed_composite; cbn [flatten composite_map]; rewrite map_map; reflexivity.
Qed.

Lemma smallest_width sg z ws : first_ok_type sg ws z = SInt sg 128 z \/
  exists w, first_ok_type sg ws z = SInt sg w z /\ In w ws /\ int_range sg w z.
Proof.
  induction ws as [|w ws IH]; cbn [first_ok_type]; [left; reflexivity|]. destruct (in_int sg w z) eqn:E.
  - right. exists w. split; [reflexivity|]. split; [left; reflexivity|apply in_int_range; exact E].
  - destruct IH as [IH|(w' & H1 & H2 & H3)]; [left; exact IH|right]. exists w'. split; [exact H1|]. split; [right; exact H2|exact H3].
Qed.

Lemma first_width sg z : int_range sg 128 z -> exists w, first_ok_type sg [8; 16; 32; 64; 128]%N z = SInt sg w z /\ In w [8; 16; 32; 64; 128]%N /\ int_range sg w z /\
  forall w', In w' [8; 16; 32; 64; 128]%N -> (w' < w)%N -> ~ int_range sg w' z.
Proof.
  intro H128. cbn [first_ok_type].
  destruct (in_int sg 8 z) eqn:E8; [exists 8%N; split; [reflexivity|]; split; [cbn; auto|]; split; [apply in_int_range; exact E8|]; intros w' HI Hl; cbn [In] in HI; lia|].
  destruct (in_int sg 16 z) eqn:E16.
  { exists 16%N. split; [reflexivity|]. split; [cbn; auto|]. split; [apply in_int_range; exact E16|]. intros w' HI Hl HR. apply in_int_range in HR. cbn [In] in HI. destruct HI as [<-|HI]; [congruence|lia]. }
  destruct (in_int sg 32 z) eqn:E32.
  { exists 32%N. split; [reflexivity|]. split; [cbn; auto|]. split; [apply in_int_range; exact E32|]. intros w' HI Hl HR. apply in_int_range in HR. cbn [In] in HI. destruct HI as [<-|[<-|HI]]; [congruence|congruence|lia]. }
  destruct (in_int sg 64 z) eqn:E64.
  { exists 64%N. split; [reflexivity|]. split; [cbn; auto|]. split; [apply in_int_range; exact E64|]. intros w' HI Hl HR. apply in_int_range in HR. cbn [In] in HI. destruct HI as [<-|[<-|[<-|HI]]]; [congruence|congruence|congruence|lia]. }
  rewrite (proj2 (in_int_range sg 128 z) H128).
  exists 128%N. split; [reflexivity|]. split; [cbn; auto 6|]. split; [exact H128|]. intros w' HI Hl HR. apply in_int_range in HR. cbn [In] in HI. destruct HI as [<-|[<-|[<-|[<-|HI]]]]; try congruence. lia.
Qed.
