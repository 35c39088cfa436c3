(** * ForeignTargets: [Variant] and [Primitive] read from a document; facts for C75. *)
From Verif Require Import Base Value Spec_Value Scale Serde SerdeFacts Spec_Serde SerdeParts Spec_Parts Spec_Foreign ForeignFacts.

Section F.
  Context {T : Type}.

  Lemma text_iff d s : de_string (SrcDoc (T := T) d) = Ok s <-> text_of d s.
  Proof.
    unfold de_string. cbn [deserialize bind]. split.
    - intro H. destruct d as [b|sg w z|ch|s'|l|l| |b| | |d|n p]; cbn [doc_de visit_string] in H; try discriminate H.
      + injection H as <-. constructor.
      + injection H as <-. constructor.
      + destruct (utf8_decode b) as [s'|] eqn:E; [|discriminate H]. injection H as <-. now constructor.
    - intro H. inversion H as [|c|b s' E]; subst; cbn [doc_de visit_string]; [reflexivity|reflexivity|now rewrite E].
  Qed.

  Definition dgood (R : doc -> composite (value unit) -> Prop) (kd : str * doc) : Prop :=
    (fst kd = s2l "name" /\ exists s, text_of (snd kd) s) \/ (fst kd = s2l "values" /\ exists c, R (snd kd) c).
  Definition dslot {A} (k : str) (R : doc -> A -> Prop) (l : list (str * doc)) (o o' : option A) : Prop :=
    (exists d x, last_given k l d /\ R d x /\ o' = Some x) \/ (~ In k (map fst l) /\ o' = o).

  Lemma dslot_skip {A} k (R : doc -> A -> Prop) l k0 d0 o o' : k0 <> k -> (dslot k R ((k0, d0) :: l) o o' <-> dslot k R l o o').
  Proof.
    intro N. unfold dslot. split.
    - intros [(v & x & L & H)|[I E]].
      + left. exists v, x. split; [|exact H]. apply last_given_cons in L as [L|(-> & _)]; [exact L|now destruct N].
      + right. split; [|exact E]. intro J. apply I. now right.
    - intros [(v & x & L & H)|[I E]].
      + left. exists v, x. split; [|exact H]. apply last_given_cons. now left.
      + right. split; [|exact E]. intros [J|J]; [now destruct N|now destruct I].
  Qed.
  Lemma dslot_hit {A} k (R : doc -> A -> Prop) l d0 x0 o o' : R d0 x0 -> (forall x, R d0 x -> x = x0) ->
    (dslot k R ((k, d0) :: l) o o' <-> dslot k R l (Some x0) o').
  Proof.
    intros H0 HU. unfold dslot. split.
    - intros [(v & x & L & H)|[I E]].
      + apply last_given_cons in L as [L|(_ & -> & N)].
        * left. now exists v, x.
        * right. split; [exact N|]. destruct H as [H ->]. now rewrite (HU x H).
      + destruct I. now left.
    - intros [(v & x & L & H)|[I ->]].
      + left. exists v, x. split; [|exact H]. apply last_given_cons. now left.
      + left. exists d0, x0. repeat split; [|exact H0]. apply last_given_cons. now right.
  Qed.

  Lemma dvariant_fields_ok (R : doc -> composite (value unit) -> Prop) (l : list (str * doc)) :
    (forall k d, In (k, d) l -> forall c, de_composite (SrcDoc (T := T) d) = Ok c <-> R d c) -> forall n0 c0 n1 c1,
    variant_fields de_value (map (fun kv => (fst kv, SrcDoc (T := T) (snd kv))) l) n0 c0 = Ok (n1, c1) <->
    Forall (dgood R) l /\ dslot (s2l "name") text_of l n0 n1 /\ dslot (s2l "values") R l c0 c1.
  Proof.
    intro HR. induction l as [|[k d] l IH]; intros n0 c0 n1 c1; cbn [map fst snd variant_fields].
    - split.
      + intro H. injection H as -> ->. split; [constructor|]. split; right; split; auto.
      + intros (_ & [(v & x & (b & a & E & _) & _)|[_ ->]] & [(v' & x' & (b' & a' & E' & _) & _)|[_ ->]]);
          try (destruct b; discriminate E); try (destruct b'; discriminate E'). reflexivity.
    - assert (IH' := IH (fun k' d' HI => HR k' d' (or_intror HI))). clear IH.
      assert (UT : forall s s', text_of d s -> text_of d s' -> s = s').
      { intros s s' H H'. apply text_iff in H, H'. congruence. }
      assert (HRd := HR k d (or_introl eq_refl)).
      assert (UR : forall c c', R d c -> R d c' -> c = c').
      { intros c c' H H'. apply HRd in H, H'. congruence. }
      destruct (str_eqb k (s2l "name")) eqn:EN; [|destruct (str_eqb k (s2l "values")) eqn:EV].
      + apply str_eqb_eq in EN. subst k. rewrite bind_ok. split.
        * intros (s & Hs & H). apply text_iff in Hs. apply IH' in H as (F & S1 & S2). split; [constructor; [left; cbn [fst snd]; eauto|exact F]|].
          split; [apply (dslot_hit _ _ _ _ s); eauto|]. apply dslot_skip; [discriminate|exact S2].
        * intros (F & S1 & S2). inversion F as [|? ? G F']; subst. destruct G as [[_ [s Hs]]|[E _]]; [|discriminate E]. cbn [snd] in Hs.
          exists s. split; [now apply text_iff|]. apply IH'. split; [exact F'|]. split; [eapply (dslot_hit _ _ _ d s) in S1; eauto|]. apply dslot_skip in S2; [exact S2|discriminate].
      + apply str_eqb_eq in EV. subst k. rewrite bind_ok. split.
        * intros (s & Hs & H). apply HRd in Hs. apply IH' in H as (F & S1 & S2). split; [constructor; [right; cbn [fst snd]; eauto|exact F]|].
          split; [apply dslot_skip; [discriminate|exact S1]|apply (dslot_hit _ _ _ _ s); eauto].
        * intros (F & S1 & S2). inversion F as [|? ? G F']; subst. destruct G as [[E _]|[_ [s Hs]]]; [discriminate E|]. cbn [snd] in Hs.
          exists s. split; [now apply HRd|]. apply IH'. split; [exact F'|]. split; [apply dslot_skip in S1; [exact S1|discriminate]|eapply (dslot_hit _ _ _ d s) in S2; eauto].
      + apply str_eqb_neq in EN, EV. split; [discriminate|]. intros (F & _). inversion F as [|? ? G F']; subst. destruct G as [[E _]|[E _]]; now cbn [fst] in E.
  Qed.

  Theorem variant_read_iff d : no_leftovers d -> forall n c, de_variant (SrcDoc (T := T) d) = Ok (n, c) <-> means_variant d n c.
  Proof.
    intros NL n c. unfold de_variant. rewrite deserialize_any_ok. cbn [bind any_of].
    assert (HF : forall x, part_of x d -> forall c, de_composite (SrcDoc (T := T) x) = Ok c <-> means_fields x c).
    { intros x HX c'. apply fields_read_iff. intros y HY _. eapply leftovers_sub; [|eapply leftovers_sub; [exact HX|exact NL]]. exact HY. }
    destruct d as [b|sg w z|ch|s|l|l| |b| | |d|m p]; cbn [doc_de visit_variant]; try (split; [discriminate|intro H; inversion H]).
    - rewrite bind_ok. assert (HV := dvariant_fields_ok means_fields l). specialize (HV (fun k x HI => HF x (P_map _ _ _ _ HI (P_self _)))). split.
      + intros ([n1 c1] & H & E). destruct n1 as [n1|]; [|discriminate E]. destruct c1 as [c1|]; [|discriminate E]. injection E as -> ->.
        apply HV in H as (F & [(dn & x & L1 & T1 & E1)|[_ E1]] & [(dc & y & L2 & T2 & E2)|[_ E2]]); try discriminate E1; try discriminate E2. injection E1 as <-. injection E2 as <-.
        eapply MV_map; eassumption.
      + intro H. inversion H as [| | |l0 n' c' dn dc F L1 T1 L2 T2]; subst. exists (Some n, Some c). split; [|reflexivity]. apply HV. split; [exact F|].
        split; left; [exists dn, n|exists dc, c]; now repeat split.
    - split; [intro H; injection H as <- <-; constructor|]. intro H. inversion H; subst. reflexivity.
    - assert (HD : forall v, de_value (SrcDoc (T := T) d) = Ok v <-> means d v) by (intro v; apply read_iff; eapply leftovers_sub; [apply P_some; constructor|exact NL]).
      rewrite rmap_ok. split.
      + intros (v & H & E). injection E as -> ->. constructor. now apply HD.
      + intro H. inversion H as [|d0 v H'| |]; subst. exists v. split; [now apply HD|reflexivity].
    - destruct p as [d|]; cbn [option_map visit_variant]; [|split; [discriminate|intro H; inversion H]].
      change (de_composite_with de_value (SrcDoc (T := T) d)) with (de_composite (SrcDoc (T := T) d)). specialize (HF d (P_enum _ _ _ (P_self _))). rewrite rmap_ok. split.
      + intros (c' & H & E). injection E as -> ->. constructor. now apply HF.
      + intro H. inversion H as [| |n0 d0 c0 H'|]; subst. exists c. split; [now apply HF|reflexivity].
  Qed.

  Lemma u8_iff d x : de_u8 (SrcDoc (T := T) d) = Ok x <-> exists sg w, w <> 128%N /\ (0 <= x < 256)%Z /\ d = FInt sg w x.
  Proof.
    unfold de_u8. cbn [deserialize bind]. split.
    - intro H. destruct d as [b|sg w z|ch|s'|l|l| |b| | |d|n p]; cbn [doc_de visit_int] in H; try discriminate H.
      destruct (w =? 128)%N eqn:E; cbn [andb] in H; [discriminate H|]. change (negb (8 =? 128)%N) with true in H. 
      destruct (in_int false 8 z) eqn:EI; [|discriminate H]. injection H as <-. exists sg, w. split; [now apply N.eqb_neq|]. split; [|reflexivity].
      unfold in_int in EI. apply andb_prop in EI as [E1 E2]. apply Z.leb_le in E1. apply Z.ltb_lt in E2. change (2 ^ Z.of_N 8)%Z with 256%Z in E2. lia.
    - intros (sg & w & N & HZ & ->). cbn [doc_de visit_int]. apply N.eqb_neq in N. rewrite N. cbn [andb].
      assert (E : in_int false 8 x = true). { unfold in_int. change (2 ^ Z.of_N 8)%Z with 256%Z. apply andb_true_intro. split; [apply Z.leb_le|apply Z.ltb_lt]; lia. }
      now rewrite E.
  Qed.

  Theorem prim_read_iff d p : de_prim (SrcDoc (T := T) d) = Ok p <-> means_prim d p.
  Proof.
    unfold de_prim. rewrite deserialize_any_ok. cbn [bind any_of].
    destruct d as [b|sg w z|ch|s|l|l| |b| | |d|m q]; cbn [doc_de visit_prim];
      try (split; [discriminate|intro H; inversion H; fail]); try (split; [intro H; injection H as <-; constructor|intro H; inversion H; reflexivity]).
    - destruct sg; (split; [intro H; injection H as <-; constructor|intro H; inversion H; reflexivity]).
    - rewrite bind_ok. split.
      + intros (b & H & E). destruct (Nat.eqb (length b) 32) eqn:EL; [|discriminate E]. injection E as <-. apply Nat.eqb_eq in EL. rewrite mapM_map, Forall2_mapM in H. constructor.
        * now rewrite map_length.
        * clear EL. induction H as [|d x l b E _ IH]; cbn [map]; constructor; [|exact IH]. apply u8_iff in E as (sg & w & N & HZ & ->). exists sg, w. split; [exact N|]. split; [lia|]. f_equal. lia.
      + intro H. inversion H as [| | | | | |l0 b EL F]; subst. exists (map Z.of_N b). rewrite map_length, EL. split.
        * rewrite mapM_map, Forall2_mapM. clear EL H. induction F as [|d x l b (sg & w & N & HZ & ->) _ IH]; cbn [map]; constructor; [|exact IH]. apply u8_iff. exists sg, w. split; [exact N|]. split; [lia|reflexivity].
        * cbn [Nat.eqb]. rewrite map_map. rewrite (map_ext _ (fun x => x)) by apply N2Z.id. now rewrite map_id.
    - destruct (Nat.eqb (length b) 32) eqn:EL.
      + apply Nat.eqb_eq in EL. split; [intro H; injection H as <-; now constructor|intro H; inversion H; reflexivity].
      + split; [discriminate|]. intro H. inversion H as [| | | | |b0 E|]; subst. now rewrite E in EL.
  Qed.
End F.
