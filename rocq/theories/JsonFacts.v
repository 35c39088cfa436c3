(** * JsonFacts: facts for C109. *)
From Verif Require Import Base Value Spec_Value ValueFacts Spec_Fmt Scale Serde SerdeFacts Spec_Serde SerdeRt SerdeUni SerdeMore SerdeParts Spec_Parts SerdeDoc Spec_Foreign ForeignFacts Spec_Scale Spec_Encode Spec_Json.
Local Open Scope N_scope.

Lemma no_leftovers_atom d : (forall l, d <> FSeq l) -> (forall l, d <> FMap l) -> (forall x, d <> FSome x) -> (forall n x, d <> FEnum n (Some x)) -> no_leftovers d.
Proof. intros H1 H2 H3 H4 x y l P. inversion P; subst; try (now eapply H1); try (now eapply H3); try (now eapply H4); now eapply H2. Qed.
Lemma no_leftovers_seq l : Forall no_leftovers l -> no_leftovers (FSeq l).
Proof. intros F x y k P. inversion P; subst. rewrite Forall_forall in F. match goal with I : In ?z l |- _ => exact (F z I x y k ltac:(eassumption)) end. Qed.
Lemma no_leftovers_map l : (forall x y r, l <> (reserved_key, x) :: y :: r) -> Forall (fun kd => no_leftovers (snd kd)) l -> no_leftovers (FMap l).
Proof.
  intros H F x y r P. inversion P; subst; [now eapply H|]. rewrite Forall_forall in F.
  match goal with I : In ?z l |- _ => specialize (F z I); cbn [snd] in F; exact (F x y r ltac:(eassumption)) end.
Qed.
Lemma no_leftovers_int z : no_leftovers (json_int z).
Proof. unfold json_int. destruct ((0 <=? z) && (z <? 2 ^ 64))%Z; [|destruct ((- 2 ^ 63 <=? z) && (z <? 0))%Z]; apply no_leftovers_atom; discriminate. Qed.

Lemma int_unsigned n : n < 2 ^ 64 -> json_int (Z.of_N n) = FInt false 64 (Z.of_N n).
Proof. intro H. unfold json_int. destruct (Z.leb_spec 0 (Z.of_N n)), (Z.ltb_spec (Z.of_N n) (2 ^ 64)); try reflexivity; lia. Qed.
Lemma means_unsigned n : n < 2 ^ 64 -> means (json_int (Z.of_N n)) (vu128 n).
Proof. intro H. rewrite int_unsigned by exact H. pose proof (M_unsigned 64 (Z.of_N n)) as M. rewrite N2Z.id in M. exact M. Qed.
Lemma means_int z : (- 2 ^ 63 <= z < 2 ^ 64)%Z -> means (json_int z) (if (0 <=? z)%Z then vu128 (Z.to_N z) else vi128 z).
Proof.
  intro H. unfold json_int. destruct (Z.leb_spec 0 z) as [Hz|Hz].
  - destruct (Z.ltb_spec z (2 ^ 64)); [|lia]. apply M_unsigned.
  - cbn [andb]. destruct (Z.leb_spec (- 2 ^ 63) z), (Z.ltb_spec z 0); try lia. apply M_signed.
Qed.
Lemma int_float z : ~ (- 2 ^ 63 <= z < 2 ^ 64)%Z -> json_int z = FFloat.
Proof.
  intro H. unfold json_int. destruct ((0 <=? z) && (z <? 2 ^ 64))%Z eqn:E1; [exfalso; apply H; lia|].
  destruct ((- 2 ^ 63 <=? z) && (z <? 0))%Z eqn:E2; [exfalso; apply H; lia|reflexivity].
Qed.

(** What is known of the document of a value. *)
Definition good {T} (v : value T) (d : doc) : Prop :=
  to_doc (ser_value v) = Some d /\ no_leftovers (through_json d) /\ (all_nodes number_fits v -> means (through_json d) (json_read v)) /\
  (forall path n ctx, node_at v path = Some (Val n ctx) ->
     (exists k, n = DPrim (PU128 k) /\ 2 ^ 64 <= k) \/ (exists z, n = DPrim (PI128 z) /\ ~ (- 2 ^ 63 <= z < 2 ^ 64)%Z) -> part_of FFloat (through_json d)).
Definition good_fields {T} (c : composite (value T)) (d : doc) : Prop :=
  to_doc (ser_composite c) = Some d /\ (match c with Named ((k, _) :: _) => k <> reserved_key | _ => True end -> no_leftovers (through_json d)) /\
  (Forall (all_nodes number_fits) (values c) -> means_fields (through_json d) (composite_map json_read c)) /\
  (forall i v path n ctx, nth_error (values c) i = Some v -> node_at v path = Some (Val n ctx) ->
     (exists k, n = DPrim (PU128 k) /\ 2 ^ 64 <= k) \/ (exists z, n = DPrim (PI128 z) /\ ~ (- 2 ^ 63 <= z < 2 ^ 64)%Z) -> part_of FFloat (through_json d)) /\
  (forall k x l, through_json d = FMap ((k, x) :: l) -> exists y r, c = Named ((k, y) :: r)) /\ through_json d <> FFloat.

Lemma good_composite {T} (c : composite (value T)) : Forall (fun v => exists d, good v d) (values c) -> exists d, good_fields c d.
Proof.
  destruct c as [l|l]; cbn [values]; intro F.
  - assert (HD : exists ds, Forall2 (fun (kv : str * value T) (kd : str * doc) => fst kd = fst kv /\ good (snd kv) (snd kd)) l ds).
    { induction l as [|[k x] l IH]; [exists []; constructor|]. cbn [map snd] in F. inversion F as [|? ? [d G] F']; subst. destruct (IH F') as [ds H]. exists ((k, d) :: ds). constructor; [split; [reflexivity|exact G]|exact H]. }
    destruct HD as [ds HD]. exists (FMap ds). repeat split.
    + apply (doc_go_map ser_value). induction HD as [|? ? ? ? [E G]]; constructor; [split; [exact E|apply G]|]. apply IHHD. now inversion F.
    + intro HK. cbn [through_json]. apply no_leftovers_map.
      * intros x y r E. destruct HD as [|[k v] [k' d] l' ds' [Ek _] _]; [discriminate|]. cbn [map fst snd] in *. injection E as E1 _ _. congruence.
      * clear HK F. induction HD as [|? ? ? ? [_ G] _ IH]; cbn [map]; constructor; [apply G|exact IH].
    + intro HN. cbn [through_json composite_map]. constructor. clear F. induction HD as [|[k v] [k' d] l' ds' [Ek G] _ IH]; cbn [map fst snd] in *; constructor.
      * cbn [fst snd]. split; [exact Ek|]. inversion HN; subst. apply G. assumption.
      * apply IH. now inversion HN.
    + intros i v path n ctx Hi Hp B. cbn [through_json]. clear F. revert i Hi. induction HD as [|[k w] [k' d] l' ds' [Ek G] _ IH]; intros [|i] Hi; cbn [map snd nth_error] in Hi; try discriminate.
      * injection Hi as ->. eapply P_map; [left; reflexivity|]. cbn [snd]. destruct G as (_ & _ & _ & G). cbn [snd] in G. eapply G; eassumption.
      * specialize (IH i Hi). inversion IH; subst. eapply P_map; [cbn [map]; right; eassumption|eassumption].
    + intros k x r E. cbn [through_json] in E. destruct HD as [|[k2 v] [k' d] l' ds' [Ek _] _]; [discriminate|]. cbn [map fst snd] in *. injection E as E1 _ _. subst. eauto.
    + discriminate.
  - assert (HD : exists ds, Forall2 good l ds).
    { induction l as [|x l IH]; [exists []; constructor|]. inversion F as [|? ? [d G] F']; subst. destruct (IH F') as [ds H]. exists (d :: ds). constructor; assumption. }
    destruct HD as [ds HD]. exists (FSeq ds). repeat split.
    + apply doc_go_seq. clear F. induction HD as [|? ? ? ? G _ IH]; cbn [map]; constructor; [apply G|exact IH].
    + intros _. cbn [through_json]. apply no_leftovers_seq. clear F. induction HD as [|? ? ? ? G _ IH]; cbn [map]; constructor; [apply G|exact IH].
    + intro HN. cbn [through_json composite_map]. constructor. clear F. induction HD as [|? ? ? ? G _ IH]; cbn [map]; constructor; [apply G; now inversion HN|apply IH; now inversion HN].
    + intros i v path n ctx Hi Hp B. cbn [through_json]. clear F. revert i Hi. induction HD as [|w d l' ds' G _ IH]; intros [|i] Hi; cbn [nth_error] in Hi; try discriminate.
      * injection Hi as ->. eapply P_seq; [left; reflexivity|]. destruct G as (_ & _ & _ & G). eapply G; eassumption.
      * specialize (IH i Hi). inversion IH; subst. eapply P_seq; [cbn [map]; right; eassumption|eassumption].
    + discriminate.
    + discriminate.
Qed.

Lemma good_any {T} (v : value T) : all_nodes name_free v -> exists d, good v d.
Proof.
  induction v as [d ctx IH] using value_ind'. intro HK. inversion HK as [? ? K KC]; subst.
  assert (HI : Forall (fun v => exists d, good v d) (children d)).
  { rewrite Forall_forall in *. intros x Hx. apply IH; [exact Hx|apply KC; exact Hx]. }
  destruct d as [c|n c|b|p]; cbn [children name_free] in *.
  - destruct (good_composite c HI) as (d & G1 & G2 & G3 & G4 & G5 & G6).
    assert (HF : match c with Named ((k, _) :: _) => k <> reserved_key | _ => True end) by (destruct c as [[|[k x] l]|l]; exact K || exact I).
    exists d. split; [exact G1|]. split; [apply G2; exact HF|]. split.
    + intro HN. inversion HN as [? ? _ HC]; subst. cbn [json_read]. apply M_fields.
      * intros k x l E. destruct (G5 _ _ _ E) as (y & r & ->). exact HF.
      * apply G3. exact HC.
    + intros path n x Hp B. destruct path as [|i path]; cbn [node_at] in Hp.
      * injection Hp as <- <-. destruct B as [(k & E & _)|(z & E & _)]; discriminate.
      * destruct (nth_error (fields_of (Val (DComposite c) ctx)) i) as [w|] eqn:Ei; [|discriminate]. eapply G4; [exact Ei|exact Hp|exact B].
  - destruct (good_composite c HI) as (d & G1 & G2 & G3 & G4 & G5 & G6).
    assert (HF : match c with Named ((k, _) :: _) => k <> reserved_key | _ => True end) by (destruct c as [[|[k x] l]|l]; exact K || exact I).
    exists (FMap [(s2l "name", FStr n); (s2l "values", d)]). split.
    { apply (to_doc_map1 [(s2l "name", SStr n); (s2l "values", ser_composite c)]). constructor; [split; reflexivity|]. constructor; [split; [reflexivity|exact G1]|constructor]. }
    cbn [through_json map fst snd]. split; [|split].
    + apply no_leftovers_map; [intros x y r E; injection E as E _ _; discriminate E|]. constructor; [apply no_leftovers_atom; discriminate|]. constructor; [apply G2; exact HF|constructor].
    + intro HN. inversion HN as [? ? _ HC]; subst. cbn [json_read]. apply M_fields.
      * intros k x l E. injection E as <- _ _. discriminate.
      * constructor. constructor; [split; [reflexivity|apply M_string]|]. constructor; [|constructor]. split; [reflexivity|]. cbn [snd]. apply M_fields.
        -- intros k x l E. destruct (G5 _ _ _ E) as (y & r & ->). exact HF.
        -- apply G3. exact HC.
    + intros path m x Hp B. destruct path as [|i path]; cbn [node_at] in Hp.
      * injection Hp as <- <-. destruct B as [(k & E & _)|(z & E & _)]; discriminate.
      * destruct (nth_error (fields_of (Val (DVariant n c) ctx)) i) as [w|] eqn:Ei; [|discriminate]. eapply P_map; [right; left; reflexivity|]. eapply G4; [exact Ei|exact Hp|exact B].
  - exists (FMap [(reserved_key, FSeq (map FBool b))]). split.
    { apply (to_doc_map1 [(reserved_key, SSeq (map SBool b))]). constructor; [|constructor]. split; [reflexivity|]. cbn [snd]. apply doc_go_seq. clear. induction b; cbn [map]; constructor; [reflexivity|assumption]. }
    cbn [through_json map fst snd]. rewrite map_map. cbn [through_json]. split; [|split].
    + apply no_leftovers_map; [discriminate|]. constructor; [|constructor]. cbn [snd]. apply no_leftovers_seq. rewrite Forall_forall. intros x Hx. apply in_map_iff in Hx as (y & <- & _). apply no_leftovers_atom; discriminate.
    + intros _. exact (M_bits b).
    + intros path m x Hp B. destruct path as [|i path]; cbn [node_at] in Hp; [|destruct i; discriminate]. injection Hp as <- <-. destruct B as [(k & E & _)|(z & E & _)]; discriminate.
  - assert (HT : forall path m x, node_at (Val (DPrim p) ctx) path = Some (Val m x) -> m = DPrim p).
    { intros path m x Hp. destruct path as [|i path]; cbn [node_at] in Hp; [|destruct i; discriminate]. congruence. }
    unfold good. cbn [ser_value].
    destruct p as [b|c|s|n|z|b|b]; cbn [ser_prim].
    + exists (FBool b). split; [reflexivity|]. split; [apply no_leftovers_atom; discriminate|]. split; [intros _; apply M_bool|]. intros path m x Hp [(k & E & _)|(z & E & _)]; rewrite (HT _ _ _ Hp) in E; discriminate.
    + exists (FChar c). split; [reflexivity|]. split; [apply no_leftovers_atom; discriminate|]. split; [intros _; apply M_string|]. intros path m x Hp [(k & E & _)|(z & E & _)]; rewrite (HT _ _ _ Hp) in E; discriminate.
    + exists (FStr s). split; [reflexivity|]. split; [apply no_leftovers_atom; discriminate|]. split; [intros _; apply M_string|]. intros path m x Hp [(k & E & _)|(z & E & _)]; rewrite (HT _ _ _ Hp) in E; discriminate.
    + destruct (first_ok_to_value_u n) as [w ->]. exists (FInt false w (Z.of_N n)). split; [reflexivity|]. cbn [through_json]. split; [apply no_leftovers_int|]. split.
      * intro HN. inversion HN; subst. apply means_unsigned. assumption.
      * intros path m x Hp [(k & E & Hk)|(z & E & _)]; rewrite (HT _ _ _ Hp) in E; [|discriminate]. injection E as <-. rewrite int_float by lia. constructor.
    + destruct (first_ok_to_value_i z) as [w ->]. exists (FInt true w z). split; [reflexivity|]. cbn [through_json]. split; [apply no_leftovers_int|]. split.
      * intro HN. inversion HN; subst. apply means_int. assumption.
      * intros path m x Hp [(k & E & Hk)|(z' & E & Hz)]; rewrite (HT _ _ _ Hp) in E; [discriminate|]. injection E as <-. rewrite int_float by exact Hz. constructor.
    + exists (FSeq (map (fun x => FInt false 8 (Z.of_N x)) b)). split; [apply doc_go_tuple; clear; induction b; constructor; [reflexivity|assumption]|].
      cbn [through_json]. rewrite map_map. cbn [through_json]. split; [|split].
      * apply no_leftovers_seq. rewrite Forall_forall. intros x Hx. apply in_map_iff in Hx as (y & <- & _). apply no_leftovers_int.
      * intro HN. inversion HN as [? ? HB _]; subst. cbn [number_fits json_read] in *. apply M_fields; [discriminate|]. constructor. clear - HB. induction HB as [|x b Hx _ IHb]; cbn [map]; constructor; [|exact IHb]. apply means_unsigned. lia.
      * intros path m x Hp [(k & E & _)|(z & E & _)]; rewrite (HT _ _ _ Hp) in E; discriminate.
    + exists (FSeq (map (fun x => FInt false 8 (Z.of_N x)) b)). split; [apply doc_go_tuple; clear; induction b; constructor; [reflexivity|assumption]|].
      cbn [through_json]. rewrite map_map. cbn [through_json]. split; [|split].
      * apply no_leftovers_seq. rewrite Forall_forall. intros x Hx. apply in_map_iff in Hx as (y & <- & _). apply no_leftovers_int.
      * intro HN. inversion HN as [? ? HB _]; subst. cbn [number_fits json_read] in *. apply M_fields; [discriminate|]. constructor. clear - HB. induction HB as [|x b Hx _ IHb]; cbn [map]; constructor; [|exact IHb]. apply means_unsigned. lia.
      * intros path m x Hp [(k & E & _)|(z & E & _)]; rewrite (HT _ _ _ Hp) in E; discriminate.
Qed.

(** Without variants, characters and 256-bit integers, what comes back is the value up to contexts and the type of nonnegative integers. *)
Lemma read_unsigned {T} (v : value T) : all_nodes json_kind v -> json_read v = unsigned_form v.
Proof.
  induction v as [d ctx IH] using value_ind'. intro H. inversion H as [? ? K KC]; subst. destruct d as [c|n c|b|p]; cbn [json_kind] in K; try contradiction.
  - cbn [json_read unsigned_form]. cbn [children] in *. rewrite Forall_forall in IH, KC. destruct c as [l|l]; cbn [composite_map values] in *.
    + match goal with |- Val (DComposite (Named ?a)) _ = Val (DComposite (Named ?b)) _ => cut (a = b); [intros ->; reflexivity|] end. apply map_ext_in. intros [k x] I. cbn [fst snd]. f_equal. apply (in_map snd) in I. apply IH; [exact I|apply KC; exact I].
    + match goal with |- Val (DComposite (Unnamed ?a)) _ = Val (DComposite (Unnamed ?b)) _ => cut (a = b); [intros ->; reflexivity|] end. apply map_ext_in. intros x I. apply IH; [exact I|apply KC; exact I].
  - reflexivity.
  - destruct p as [b|c|s|n|z|b|b]; try contradiction; try reflexivity. cbn [json_read unsigned_form unsign_prim]. now destruct (0 <=? z)%Z.
Qed.
