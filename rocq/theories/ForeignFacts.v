(** * ForeignFacts: facts for C75. *)
From Verif Require Import Base Value Spec_Value Scale Serde SerdeFacts Spec_Serde SerdeRt SerdeUni SerdeMore SerdeParts Spec_Parts Spec_Foreign.

Section F.
  Context {T : Type}.
  Notation dv d := (de_value (SrcDoc (T := T) d)).

  Lemma dv_prim_cases d : dv d = rmap (fun x => Val x tt) (visit_valuedef de_value (doc_de (T := T) d)).
  Proof. exact (de_value_unfold (SrcDoc d)). Qed.

  Lemma dc_eq d : de_composite (SrcDoc (T := T) d) = visit_composite de_value (doc_de (T := T) d).
  Proof. unfold de_composite, de_composite_with. now rewrite deserialize_any_ok. Qed.

  Lemma read_bools l : forall bs, mapM (de_bool (T := T)) (map SrcDoc l) = Ok bs <-> l = map FBool bs.
  Proof.
    intro bs. rewrite mapM_map, Forall2_mapM. split.
    - intro H. induction H as [|d b l bs E _ IH]; [reflexivity|]. cbn [map]. f_equal; [|exact IH]. unfold de_bool in E. cbn [deserialize bind] in E.
      destruct d as [b'|? ? ?|?|?|?|?| |?| | |?|? ?]; cbn [doc_de visit_bool] in E; try discriminate E. now injection E as ->.
    - intros ->. induction bs as [|b bs IH]; cbn [map]; constructor; [reflexivity|exact IH].
  Qed.

  Lemma fields_iff d (c : composite (value unit)) :
    (visit_composite de_value (doc_de (T := T) d) = Ok c <->
     (d = FUnit /\ c = Unnamed []) \/ (exists b, d = FBytes b /\ c = Unnamed (map vu128 b)) \/
     (exists l vs, d = FSeq l /\ c = Unnamed vs /\ Forall2 (fun x v => dv x = Ok v) l vs) \/
     (exists l vs, d = FMap l /\ c = Named vs /\ Forall2 (fun kd kv => fst kd = fst kv /\ dv (snd kd) = Ok (snd kv)) l vs)).
  Proof.
    split.
    - intro H. destruct d as [b|sg w z|ch|s|l|l| |b| | |d|n [d|]]; cbn [doc_de option_map visit_composite] in H; try discriminate H.
      + right. right. left. apply rmap_ok in H as (vs & H & ->). exists l, vs. split; [reflexivity|]. split; [reflexivity|].
        now rewrite mapM_map, Forall2_mapM in H.
      + right. right. right. apply rmap_ok in H as (vs & H & ->). exists l, vs. split; [reflexivity|]. split; [reflexivity|].
        rewrite mapM_map, Forall2_mapM in H. induction H as [|[k x] v l' vs E _ IHl]; constructor; [|exact IHl].
        cbn [fst snd] in E. apply rmap_ok in E as (y & E & ->). cbn [fst snd]. now split.
      + right. left. exists b. injection H as <-. now split.
      + left. injection H as <-. now split.
    - intros [[-> ->]|[(b & -> & ->)|[(l & vs & -> & -> & F)|(l & vs & -> & -> & F)]]]; [reflexivity|reflexivity| |].
      + cbn [doc_de visit_composite]. apply rmap_ok. exists vs. split; [|reflexivity]. now rewrite mapM_map, Forall2_mapM.
      + cbn [doc_de visit_composite]. apply rmap_ok. exists vs. split; [|reflexivity]. rewrite mapM_map, Forall2_mapM.
        induction F as [|[k x] [k' v] l' vs E _ IHl]; constructor; [|exact IHl]. cbn [fst snd] in *. destruct E as [-> E]. apply rmap_ok. now exists v.
  Qed.

  Lemma means_fields_iff d c :
    means_fields d c <->
     (d = FUnit /\ c = Unnamed []) \/ (exists b, d = FBytes b /\ c = Unnamed (map vu128 b)) \/
     (exists l vs, d = FSeq l /\ c = Unnamed vs /\ Forall2 means l vs) \/
     (exists l vs, d = FMap l /\ c = Named vs /\ Forall2 (fun kd kv => fst kd = fst kv /\ means (snd kd) (snd kv)) l vs).
  Proof.
    split.
    - intro H. inversion H; subst; [left|right; left|right; right; left|right; right; right]; eauto 6.
    - intros [[-> ->]|[(b & -> & ->)|[(l & vs & -> & -> & F)|(l & vs & -> & -> & F)]]]; constructor; exact F.
  Qed.

  Lemma leftovers_sub p d : part_of p d -> no_leftovers d -> no_leftovers p.
  Proof.
    intros HP HN x y l H. apply (HN x y l). clear HN. induction HP as [|e l' HI _ IH|k e l' HI _ IH|e _ IH|n e _ IH].
    - exact H.
    - eapply P_seq; eassumption.
    - eapply P_map; eassumption.
    - apply P_some; exact IH.
    - apply P_enum; exact IH.
  Qed.

  (** [means_fields] is [visit_composite] for [dv], given the claim below [d]. *)
  Lemma fields_step d c : (forall x v, part_of x d -> (doc_size x < doc_size d)%nat -> dv x = Ok v <-> means x v) ->
    visit_composite de_value (doc_de (T := T) d) = Ok c <-> means_fields d c.
  Proof.
    intro IH. rewrite means_fields_iff.
    rewrite (fields_iff d c).
    assert (E1 : forall l vs, d = FSeq l -> (Forall2 (fun x v => dv x = Ok v) l vs <-> Forall2 means l vs)).
    { intros l vs ->. assert (HI : forall x, In x l -> forall v, dv x = Ok v <-> means x v).
      { intros x Hx v. apply IH; [eapply P_seq; [exact Hx|constructor]|now apply doc_size_seq]. }
      clear -HI. split; intro F; induction F as [|x v l vs E _ IHl]; constructor; try (apply HI; [now left|exact E]); apply IHl; intros y Hy; apply HI; now right. }
    assert (E2 : forall l vs, d = FMap l -> (Forall2 (fun kd kv => fst kd = fst kv /\ dv (snd kd) = Ok (snd kv)) l vs <-> Forall2 (fun kd kv => fst kd = fst kv /\ means (snd kd) (snd kv)) l vs)).
    { intros l vs ->. assert (HI : forall k x, In (k, x) l -> forall v, dv x = Ok v <-> means x v).
      { intros k x Hx v. apply IH; [eapply P_map; [exact Hx|constructor]|now apply (doc_size_map l k)]. }
      clear -HI. split; intro F; induction F as [|[k x] [k' v] l vs [E1 E] _ IHl]; constructor; cbn [fst snd] in *;
        try (split; [exact E1|apply (HI k); [now left|exact E]]); apply IHl; intros k0 y Hy; apply (HI k0); now right. }
    split; (intros [H|[H|[(l & vs & H1 & H2 & F)|(l & vs & H1 & H2 & F)]]]; [left; exact H|right; left; exact H|right; right; left|right; right; right]);
      exists l, vs; (split; [exact H1|]); (split; [exact H2|]); first [now apply E1|now apply E2].
  Qed.

  Theorem read_iff d : no_leftovers d -> forall v, dv d = Ok v <-> means d v.
  Proof.
    remember (doc_size d) as n eqn:En. revert d En. induction n as [n IHn] using lt_wf_ind. intros d -> NL v.
    assert (IH : forall x w, part_of x d -> (doc_size x < doc_size d)%nat -> dv x = Ok w <-> means x w).
    { intros x w HP HS. apply (IHn (doc_size x) HS x eq_refl). eapply leftovers_sub; eassumption. }
    clear IHn. pose proof (fields_step d) as HF. specialize (fun c => HF c IH). rewrite dv_prim_cases.
    destruct d as [b|sg w z|ch|s|l|l| |b| | |d|n p]; cbn [doc_de visit_valuedef].
    - split; [intro H; injection H as <-; constructor|intro H; inversion H as [| | | | | | | | |? ? _ H']; subst; [reflexivity|inversion H']].
    - destruct sg; (split; [intro H; injection H as <-; constructor|intro H; inversion H as [| | | | | | | | |? ? _ H']; subst; [reflexivity|inversion H']]).
    - split; [intro H; injection H as <-; constructor|intro H; inversion H as [| | | | | | | | |? ? _ H']; subst; [reflexivity|inversion H']].
    - split; [intro H; injection H as <-; constructor|intro H; inversion H as [| | | | | | | | |? ? _ H']; subst; [reflexivity|inversion H']].
    - cbn [doc_de] in HF. rewrite !rmap_ok. split.
      + intros (y & H & ->). apply rmap_ok in H as (c & H & ->). apply HF in H. apply M_fields; [discriminate|exact H].
      + intro H. inversion H as [| | | | | | | | |d0 c _ H']; subst. exists (DComposite c). split; [|reflexivity]. apply rmap_ok. exists c. split; [|reflexivity]. now apply HF.
    - cbn [doc_de visit_composite] in HF.
      assert (HP : forall k x l', l = (k, x) :: l' -> str_eqb k bitvec_key = false -> forall v, rmap (fun x => Val x tt) (visit_map_or_bits de_value (map (fun kv => (fst kv, SrcDoc (T := T) (snd kv))) l)) = Ok v <-> exists c, means_fields (FMap l) c /\ v = Val (DComposite c) tt).
      { intros k x l' E EK w. rewrite visit_map_plain; [|subst l; cbn [map fst]; exact EK]. rewrite rmap_ok. split.
        - intros (y & H & ->). apply rmap_ok in H as (kvs & H & ->). exists (Named kvs). split; [|reflexivity]. apply HF. apply rmap_ok. eauto.
        - intros (c & H & ->). apply HF in H. apply rmap_ok in H as (kvs & H & ->). exists (DComposite (Named kvs)). split; [|reflexivity]. apply rmap_ok. eauto. }
      destruct l as [|[k x] l].
      + cbn [map visit_map_or_bits rmap]. split.
        * intro H. injection H as <-. apply M_fields; [discriminate|]. constructor. constructor.
        * intro H. inversion H as [| | | | | | | | |d0 c _ H']; subst. inversion H' as [| | |l0 vs F]; subst. inversion F; subst. reflexivity.
      + destruct (str_eqb k bitvec_key) eqn:EK.
        * clear HP. cbn [map fst snd visit_map_or_bits]. rewrite EK. apply str_eqb_eq in EK. subst k.
          assert (l = []) by (destruct l as [|y l]; [reflexivity|destruct (NL x y l); constructor]). subst l. cbn [deserialize bind].
          split.
          -- intro H. apply rmap_ok in H as (y & H & ->). apply rmap_ok in H as (bs & H & ->).
             destruct x as [b|sg w z|ch|s|l|l| |b| | |d|n p]; cbn [doc_de visit_vec] in H; try discriminate H. apply read_bools in H. subst l. apply M_bits.
          -- intro H. inversion H as [| | | | | | | |bs|d0 c NK H']; subst.
             ++ cbn [doc_de visit_vec]. rewrite (proj2 (read_bools _ bs) eq_refl). reflexivity.
             ++ destruct (NK reserved_key x [] eq_refl). reflexivity.
        * rewrite (HP k x l eq_refl EK v). clear HP. split.
          -- intros (c & H & ->). apply M_fields; [|exact H]. intros k' x' l' E. injection E as -> _ _. now apply str_eqb_neq in EK.
          -- intro H. inversion H as [| | | | | | | |bs|d0 c NK H']; subst.
             ++ now rewrite str_eqb_refl in EK.
             ++ eauto.
    - split; [discriminate|]. intro H. inversion H as [| | | | | | | | |d0 c _ H']; subst. inversion H'.
    - split; [intro H; injection H as <-; apply M_fields; [discriminate|constructor]|]. intro H. inversion H as [| | | | | | | | |d0 c _ H']; subst. inversion H'. reflexivity.
    - split; [intro H; injection H as <-; apply M_fields; [discriminate|constructor]|]. intro H. inversion H as [| | | | | | | | |d0 c _ H']; subst. inversion H'. reflexivity.
    - split; [intro H; injection H as <-; constructor|]. intro H. inversion H as [| | | | | | | | |d0 c _ H']; subst; [reflexivity|inversion H'].
    - cbn [visit_variant]. split.
      + intro H. apply rmap_ok in H as (y & H & ->). apply rmap_ok in H as (nc & H & ->). apply rmap_ok in H as (w & H & ->). cbn [fst snd]. apply M_some. apply IH; [apply P_some; constructor|cbn [doc_size]; lia|exact H].
      + intro H. inversion H as [| | | | | |d0 w H'| | |d0 c _ H']; subst; [|inversion H']. apply IH in H'; [|apply P_some; constructor|cbn [doc_size]; lia]. rewrite H'. reflexivity.
    - destruct p as [d|]; cbn [option_map visit_variant].
      + assert (HF' : forall c, visit_composite de_value (doc_de (T := T) d) = Ok c <-> means_fields d c).
        { intro c. apply fields_step. intros x w HX HS. apply IH; [apply P_enum; exact HX|cbn [doc_size]; lia]. }
        change (de_composite_with de_value (SrcDoc (T := T) d)) with (de_composite (SrcDoc (T := T) d)). rewrite dc_eq. split.
        * intro H. apply rmap_ok in H as (y & H & ->). apply rmap_ok in H as (nc & H & ->). apply rmap_ok in H as (c & H & ->). cbn [fst snd]. apply M_variant. now apply HF'.
        * intro H. inversion H as [| | | | | | |n0 d0 c H'| |d0 c _ H']; subst; [|inversion H']. apply HF' in H'. rewrite H'. reflexivity.
      + split; [discriminate|]. intro H. inversion H as [| | | | | | | | |d0 c _ H']; subst. inversion H'.
  Qed.

  Theorem fields_read_iff d : (forall x, part_of x d -> x <> d -> no_leftovers x) -> forall c, de_composite (SrcDoc (T := T) d) = Ok c <-> means_fields d c.
  Proof.
    intros NL c. rewrite dc_eq. apply fields_step. intros x v HX HS. apply read_iff. apply NL; [exact HX|]. intros ->. lia.
  Qed.

  (** ** Refusals *)
  Lemma mapM_err {A B E} (f : A -> result B E) l e : mapM f l = Err e -> exists x, In x l /\ f x = Err e.
  Proof.
    induction l as [|x l IH]; cbn [mapM]; [discriminate|]. destruct (f x) as [y|e'] eqn:Ef; cbn [bind].
    - destruct (mapM f l) as [ys|e'] eqn:Em; cbn [rmap]; [discriminate|]. intro H. injection H as ->. destruct (IH eq_refl) as (z & HI & Hz). exists z. split; [now right|exact Hz].
    - intro H. injection H as ->. exists x. split; [now left|exact Ef].
  Qed.
  Lemma rmap_err {A B E} (f : A -> B) (r : result A E) e : rmap f r = Err e -> r = Err e.
  Proof. destruct r; cbn [rmap]; [discriminate|]. intro H. now injection H as ->. Qed.

  Lemma fields_refused d e : visit_composite de_value (doc_de (T := T) d) = Err e ->
    (d <> FUnit /\ (forall b, d <> FBytes b) /\ (forall l, d <> FSeq l) /\ (forall l, d <> FMap l)) \/
    exists x e', part_of x d /\ (doc_size x < doc_size d)%nat /\ dv x = Err e'.
  Proof.
    intro H. destruct d as [b|sg w z|ch|s|l|l| |b| | |d|n [d|]]; try (left; repeat split; discriminate); cbn [doc_de visit_composite] in H.
    - right. apply rmap_err in H. rewrite mapM_map in H. apply mapM_err in H as (x & HI & H). exists x, e. split; [eapply P_seq; [exact HI|constructor]|]. split; [now apply doc_size_seq|exact H].
    - right. apply rmap_err in H. rewrite mapM_map in H. apply mapM_err in H as ([k x] & HI & H). cbn [fst snd] in H. apply rmap_err in H. exists x, e. split; [eapply P_map; [exact HI|constructor]|]. split; [now apply (doc_size_map l k)|exact H].
  Qed.

  Theorem refused d e : dv d = Err e -> exists p, part_of p d /\ unreadable p.
  Proof.
    remember (doc_size d) as n eqn:En. revert d e En. induction n as [n IHn] using lt_wf_ind. intros d e -> H.
    assert (UP : forall x, part_of x d -> (exists p, part_of p x /\ unreadable p) -> exists p, part_of p d /\ unreadable p).
    { intros x HX (p & HP & HU). exists p. split; [|exact HU]. clear -HX HP. induction HX as [|y l HI _ IH|k y l HI _ IH|y _ IH|m y _ IH];
        [exact HP|eapply P_seq; eassumption|eapply P_map; eassumption|apply P_some; exact IH|apply P_enum; exact IH]. }
    rewrite dv_prim_cases in H. apply rmap_err in H.
    destruct d as [b|sg w z|ch|s|l|l| |b| | |d|n p]; cbn [doc_de visit_valuedef] in H; try discriminate H.
    - destruct sg; discriminate H.
    - apply rmap_err in H. pose proof (fields_refused (FSeq l) e) as HF. cbn [doc_de] in HF. destruct (HF H) as [(_ & _ & N & _)|(x & e' & HX & HS & HE)]; [destruct (N l eq_refl)|].
      apply (UP x HX). exact (IHn _ HS x e' eq_refl HE).
    - destruct l as [|[k x] l]; [discriminate H|]. destruct (str_eqb k bitvec_key) eqn:EK.
      + apply str_eqb_eq in EK. subst k. exists (FMap ((bitvec_key, x) :: l)). split; [constructor|]. apply U_bits. intros bs ->.
        cbn [map fst snd visit_map_or_bits] in H. rewrite str_eqb_refl in H. cbn [deserialize doc_de bind visit_vec] in H. rewrite (proj2 (read_bools _ bs) eq_refl) in H. discriminate H.
      + rewrite visit_map_plain in H by exact EK. apply rmap_err in H.
        pose proof (fields_refused (FMap ((k, x) :: l)) e) as HF. cbn [doc_de visit_composite] in HF. rewrite H in HF. destruct (HF eq_refl) as [(_ & _ & _ & N)|(y & e' & HX & HS & HE)]; [destruct (N _ eq_refl)|].
        apply (UP y HX). exact (IHn _ HS y e' eq_refl HE).
    - exists FFloat. split; constructor.
    - apply rmap_err in H. cbn [visit_variant] in H. apply rmap_err in H. apply (UP d); [apply P_some; constructor|]. refine (IHn (doc_size d) _ d e eq_refl H). cbn [doc_size]. lia.
    - destruct p as [d|]; cbn [option_map visit_variant] in H.
      + apply rmap_err, rmap_err in H. change (de_composite_with de_value (SrcDoc (T := T) d)) with (de_composite (SrcDoc (T := T) d)) in H. rewrite dc_eq in H.
        destruct (fields_refused d e H) as [(N1 & N2 & N3 & N4)|(x & e' & HX & HS & HE)].
        * exists (FEnum n (Some d)). split; [constructor|]. now apply U_variant.
        * apply (UP x); [apply P_enum; exact HX|]. refine (IHn (doc_size x) _ x e' eq_refl HE). cbn [doc_size]. lia.
      + exists (FEnum n None). split; constructor.
  Qed.
End F.

Lemma Forall2_in_l {A B} (R : A -> B -> Prop) l l' x : Forall2 R l l' -> In x l -> exists y, In y l' /\ R x y.
Proof. induction 1 as [|a b l l' H _ IH]; intros []; [subst; exists b; split; [now left|exact H]|]. destruct (IH H0) as (y & HI & HR). exists y. split; [now right|exact HR]. Qed.

(** Nothing that is read contains a float or a contentless variant. *)
Lemma means_clean p : p = FFloat \/ (exists n, p = FEnum n None) -> forall d, part_of p d -> (forall v, ~ means d v) /\ (forall c, ~ means_fields d c).
Proof.
  intros HB d HP. induction HP as [|x l HI _ [IH _]|k x l HI _ [IH _]|x _ [IH _]|n x _ [_ IH]].
  - assert (HC : forall c, ~ means_fields p c) by (intros c H; destruct HB as [->|[n ->]]; inversion H). split; [|exact HC].
    intros v H. inversion H; subst; try (destruct HB as [HB|[n' HB]]; discriminate HB). now apply (HC c).
  - assert (HC : forall c, ~ means_fields (FSeq l) c).
    { intros c H. inversion H as [| |l0 vs F|]; subst. destruct (Forall2_in_l _ _ _ _ F HI) as (v & _ & HV). now apply (IH v). }
    split; [|exact HC]. intros v H. inversion H; subst. now apply (HC c).
  - assert (HC : forall c, ~ means_fields (FMap l) c).
    { intros c H. inversion H as [| | |l0 vs F]; subst. destruct (Forall2_in_l _ _ _ _ F HI) as (v & _ & _ & HV). now apply (IH (snd v)). }
    split; [|exact HC]. intros v H. inversion H as [| | | | | | | |bs|]; subst; [|now apply (HC c)].
    destruct HI as [E|[]]. injection E as _ <-. apply (IH (unnamed_composite (map vbool bs))). apply M_fields; [discriminate|]. constructor.
    clear. induction bs; cbn [map]; constructor; [constructor|assumption].
  - assert (HC : forall c, ~ means_fields (FSome x) c) by (intros c H; inversion H). split; [|exact HC].
    intros v H. inversion H; subst; [|now apply (HC c)]. now apply (IH v0).
  - assert (HC : forall c, ~ means_fields (FEnum n (Some x)) c) by (intros c H; inversion H). split; [|exact HC].
    intros v H. inversion H; subst; [|now apply (HC c)]. now apply (IH c).
Qed.

(** ** JSON *)
Lemma plain_part p d : part_of p d -> plain d -> plain p.
Proof.
  induction 1 as [|x l HI _ IH|k x l HI _ IH|x _ IH|n x _ IH]; intro H; [exact H|..]; apply IH; inversion H as [| | | |l0 F|l0 _ F]; subst.
  - rewrite Forall_forall in F. now apply F.
  - rewrite Forall_forall in F. exact (F _ HI).
Qed.
Lemma plain_no_leftovers d : plain d -> no_leftovers d.
Proof. intros H x y l HP. apply (plain_part _ _ HP) in H. inversion H as [| | | | |l0 N _]; subst. now apply (N _ _ _ eq_refl). Qed.

Lemma json_ok d : plain d -> exists v d', means d v /\ to_doc (ser_value v) = Some d' /\ same_json d d'.
Proof.
  remember (doc_size d) as n eqn:En. revert d En. induction n as [n IHn] using lt_wf_ind. intros d -> H.
  inversion H as [b|w z HZ|w z|s|l F|l N F]; subst.
  - exists (vbool b), (FBool b). repeat split; constructor.
  - destruct (first_ok_to_value_u (Z.to_N z)) as [w' E]. exists (vu128 (Z.to_N z)), (FInt false w' z). split; [constructor|]. cbn [vu128 primitive ser_value ser_prim]. rewrite E, Z2N.id by exact HZ. split; [reflexivity|constructor].
  - destruct (first_ok_to_value_i z) as [w' E]. exists (vi128 z), (FInt true w' z). split; [constructor|]. cbn [vi128 primitive ser_value ser_prim]. rewrite E. split; [reflexivity|constructor].
  - exists (vstring s), (FStr s). repeat split; constructor.
  - assert (HX : exists vs ds, Forall2 means l vs /\ Forall2 (fun v d => to_doc (ser_value v) = Some d) vs ds /\ Forall2 same_json l ds).
    { assert (HI : forall x, In x l -> (doc_size x < doc_size (FSeq l))%nat) by apply doc_size_seq. revert IHn HI. clear H. generalize (doc_size (FSeq l)). intros n IHn HI.
      induction F as [|x l Hx _ IHl]; [exists [], []; repeat split; constructor|].
      destruct (IHn (doc_size x) (HI x (or_introl eq_refl)) x eq_refl Hx) as (v & d & H1 & H2 & H3). destruct IHl as (vs & ds & F1 & F2 & F3); [intros y Hy; apply HI; now right|].
      exists (v :: vs), (d :: ds). repeat split; constructor; assumption. }
    destruct HX as (vs & ds & F1 & F2 & F3). exists (unnamed_composite vs), (FSeq ds). split; [apply M_fields; [discriminate|now constructor]|]. split; [|now constructor].
    cbn [unnamed_composite ser_value ser_composite_with]. apply doc_go_seq. clear -F2. induction F2; cbn [map]; constructor; assumption.
  - assert (HX : exists vs ds, Forall2 (fun kd kv => fst kd = fst kv /\ means (snd kd) (snd kv)) l vs /\ Forall2 (fun (kv : str * value unit) kd => fst kd = fst kv /\ to_doc (ser_value (snd kv)) = Some (snd kd)) vs ds /\ Forall2 (fun kd kd' => fst kd = fst kd' /\ same_json (snd kd) (snd kd')) l ds).
    { assert (HI : forall k x, In (k, x) l -> (doc_size x < doc_size (FMap l))%nat) by apply doc_size_map. revert IHn HI. clear H N. generalize (doc_size (FMap l)). intros n IHn HI.
      induction F as [|[k x] l Hx _ IHl]; [exists [], []; repeat split; constructor|]. cbn [snd] in Hx.
      destruct (IHn (doc_size x) (HI k x (or_introl eq_refl)) x eq_refl Hx) as (v & d & H1 & H2 & H3). destruct IHl as (vs & ds & F1 & F2 & F3); [intros k' y Hy; apply (HI k'); now right|].
      exists ((k, v) :: vs), ((k, d) :: ds). repeat split; constructor; try assumption; split; try reflexivity; assumption. }
    destruct HX as (vs & ds & F1 & F2 & F3). exists (named_composite vs), (FMap ds). split; [apply M_fields; [|now constructor]|].
    { intros k x l' E. injection E as ->. now apply (N k x l'). }
    split; [|now constructor]. cbn [named_composite ser_value ser_composite_with]. now apply (doc_go_map ser_value).
Qed.

Lemma same_json_means d : forall d' v, same_json d d' -> means d v -> plain d -> means d' v.
Proof.
  remember (doc_size d) as n eqn:En. revert d En. induction n as [n IHn] using lt_wf_ind. intros d -> d' v S H P. inversion S as [b|sg w w' z|s|l l' F|l l' F]; subst.
  - exact H.
  - inversion H as [| | | | | | | | |? ? _ H']; subst; [constructor|constructor|inversion H'].
  - exact H.
  - inversion H as [| | | | | | | | |d0 c _ H']; subst. inversion H' as [| |l0 vs F2|]; subst. apply M_fields; [discriminate|]. constructor.
    inversion P as [| | | |l0 FP|]; subst. assert (HI : forall x, In x l -> (doc_size x < doc_size (FSeq l))%nat) by apply doc_size_seq. revert IHn HI. generalize (doc_size (FSeq l)). intros n IHn HI.
    clear -IHn HI F F2 FP. revert vs F2. induction F as [|x y l l' Hx _ IHl]; intros vs F2; inversion F2; subst; constructor.
    + inversion FP; subst. eapply (IHn (doc_size x)); [apply HI; now left|reflexivity|exact Hx|assumption|assumption].
    + inversion FP; subst. apply IHl; [assumption|intros; apply HI; now right|assumption].
  - inversion P as [| | | | |l0 NK FP]; subst. inversion H as [| | | | | | | |bs|d0 c _ H']; subst; [now destruct (NK _ _ _ eq_refl)|]. inversion H' as [| | |l0 vs F2]; subst. apply M_fields.
    { intros k x l0 E. injection E as ->. inversion F as [|[k1 x1] ? l1 ? [E1 _] _]; subst. cbn [fst] in E1. subst k1. now apply (NK _ _ _ eq_refl). }
    constructor. assert (HI : forall k x, In (k, x) l -> (doc_size x < doc_size (FMap l))%nat) by apply doc_size_map. revert IHn HI. generalize (doc_size (FMap l)). intros n IHn HI.
    clear -IHn HI F F2 FP. revert vs F2. induction F as [|[k x] [k' y] l l' [EK Hx] _ IHl]; intros vs F2; inversion F2 as [|? [k2 v2] ? vs' [E2 HV] F2']; subst; constructor.
    + inversion FP; subst. cbn [fst snd] in *. subst. split; [reflexivity|]. eapply (IHn (doc_size x)); [apply (HI k2); now left|reflexivity|exact Hx|assumption|assumption].
    + inversion FP; subst. apply IHl; [assumption|intros k3 ? ?; apply (HI k3); now right|assumption].
Qed.
