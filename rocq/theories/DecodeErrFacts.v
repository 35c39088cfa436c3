(** * DecodeErrFacts: decode errors are true, and whatever is wrong is reported. *)
From Verif Require Import Base Value Registry Spec_Scale Scale ScaleFacts Decode DecodeFacts Spec_DecodeErrors.
Open Scope N_scope.

Lemma take_err k bs e : take k bs = Err e <-> e = ENotEnough /\ (length bs < k)%nat.
Proof.
  unfold take. destruct (Nat.ltb_spec (length bs) k) as [L|L].
  - split; [intros [= <-]; auto|intros [-> _]; reflexivity].
  - split; [discriminate|intros [_ H]; lia].
Qed.

Lemma bind_err {A B E} (r : result A E) (f : A -> result B E) e : bind r f = Err e <-> r = Err e \/ exists x, r = Ok x /\ f x = Err e.
Proof.
  destruct r as [x|e']; cbn [bind]; split.
  - intro H. right. exists x. auto.
  - intros [H|(y & [= <-] & H)]; [discriminate|exact H].
  - intros [= <-]. auto.
  - intros [[= <-]|(y & H & _)]; [reflexivity|discriminate].
Qed.

Lemma compact_err w bs e : is_bytes bs -> compact_decode w bs = Err e <-> (e = ENotEnough /\ truncated bs) \/ (e = ECodec /\ no_compact w bs).
Proof.
  intro HB.
  assert (K : forall e, compact_decode w bs = Err e -> (e = ENotEnough /\ truncated bs) \/ (e = ECodec /\ ~ truncated bs)).
  { clear e. intros e H. destruct bs as [|p r]; [right; injection H as <-; split; [reflexivity|]; inversion 1|].
    cbn [compact_decode] in H. cbv zeta in H.
    destruct (N.eqb_spec (p mod 4) 0) as [M0|M0].
    { destruct (_ && _); [discriminate|]. injection H as <-. right. split; [reflexivity|]. intro TR. inversion TR; subst; congruence. }
    destruct (N.eqb_spec (p mod 4) 1) as [M1|M1].
    { apply bind_err in H as [H|([a s] & T & H)].
      - apply take_err in H as [-> L]. left. split; [reflexivity|]. now apply Tr_2.
      - destruct (_ && _); [discriminate|]. injection H as <-. right. split; [reflexivity|]. intro TR. apply take_ok in T as [E L].
        assert (LL : length (p :: r) = (2 + length s)%nat) by (rewrite E, app_length, L; reflexivity). inversion TR; subst; try congruence. lia. }
    destruct (N.eqb_spec (p mod 4) 2) as [M2|M2].
    { apply bind_err in H as [H|([a s] & T & H)].
      - apply take_err in H as [-> L]. left. split; [reflexivity|]. now apply Tr_4.
      - destruct (_ && _); [discriminate|]. injection H as <-. right. split; [reflexivity|]. intro TR. apply take_ok in T as [E L].
        assert (LL : length (p :: r) = (4 + length s)%nat) by (rewrite E, app_length, L; reflexivity). inversion TR; subst; try congruence. lia. }
    assert (M3 : p mod 4 = 3) by lia.
    apply bind_err in H as [H|([a s] & T & H)].
    - apply take_err in H as [-> L]. left. split; [reflexivity|]. apply Tr_big; [exact M3|lia].
    - destruct (_ && _); [discriminate|]. injection H as <-. right. split; [reflexivity|]. intro TR. apply take_ok in T as [E L].
      assert (LL : length r = (N.to_nat (p / 4 + 4) + length s)%nat) by (rewrite E, app_length, L; reflexivity). inversion TR; subst; try congruence. lia. }
  split.
  - intro H. destruct (K e H) as [K'|[-> K']]; [auto|]. right. split; [reflexivity|]. split; [exact K'|]. intros n pre r -> HC.
    destruct (N.lt_ge_cases n (2 ^ w)) as [L|L]; [|exact L]. rewrite (compact_decode_complete w n pre r HC L) in H. discriminate.
  - intros [[-> TR]|[-> [NT NC]]].
    + destruct (compact_decode w bs) as [[n r]|e'] eqn:D.
      * exfalso. destruct bs as [|p r0]; [inversion TR|]. cbn [compact_decode] in D. cbv zeta in D.
        inversion TR as [p0 r1 M L E1|p0 r1 M L E1|p0 r1 M L E1]; subst p0 r1; rewrite M in D; cbn [N.eqb Pos.eqb] in D.
        -- replace (take 2 (p :: r0)) with (Err (A := bytes * bytes) ENotEnough) in D by (symmetry; apply take_err; split; [reflexivity|exact L]). discriminate.
        -- replace (take 4 (p :: r0)) with (Err (A := bytes * bytes) ENotEnough) in D by (symmetry; apply take_err; split; [reflexivity|exact L]). discriminate.
        -- replace (take (N.to_nat (p / 4 + 4)) r0) with (Err (A := bytes * bytes) ENotEnough) in D by (symmetry; apply take_err; split; [reflexivity|lia]). discriminate.
      * destruct (K e' eq_refl) as [[-> _]|[_ N]]; [reflexivity|contradiction].
    + destruct (compact_decode w bs) as [[n r]|e'] eqn:D.
      * exfalso. apply compact_decode_sound in D as (pre & -> & HC & L); [|exact HB]. specialize (NC n pre r eq_refl HC). lia.
      * destruct (K e' eq_refl) as [[_ N]|[-> _]]; [contradiction|reflexivity].
Qed.

Section Prim.
  Context (lenbits : N).
  Lemma prim_err c p bs e : is_bytes bs -> read_prim lenbits PU256 c p bs = Err e <-> wrong_prim lenbits c p bs e.
  Proof.
    intro HB. destruct c.
    - assert (NC : (forall w, p <> PtU w) -> (Err (A := prim * bytes) ECannotCompact = Err e <-> wrong_prim lenbits true p bs e)).
      { intro HP. split; [intros [= <-]; now constructor|]. inversion 1; subst; [reflexivity|..]; exfalso; eapply HP; reflexivity. }
      destruct p as [| | |w|w| |]; cbn [read_prim]; try (apply NC; discriminate). clear NC. split.
      + intro H. apply bind_err in H as [H|([n r] & _ & H)]; [|discriminate].
        apply compact_err in H as [[-> H]|[-> H]]; [now constructor|now constructor|exact HB].
      + intro H. apply bind_err. left. apply compact_err; [exact HB|]. inversion H as [p bs0 HP|w0 bs0 HT|w0 bs0 HN| | | | | | | |]; subst; [exfalso; eapply HP; reflexivity|auto|auto].
    - assert (FX : forall k (f : bytes * bytes -> dres prim), fixed_size p = Some k -> (forall x, exists y, f x = Ok y) -> p <> PtChar -> (bind (take k bs) f = Err e <-> wrong_prim lenbits false p bs e)).
      { intros k f HF Hf HC. split.
        - intro H. apply bind_err in H as [H|(x & _ & H)]; [|destruct (Hf x); congruence]. apply take_err in H as [-> L]. eapply Wp_short; eassumption.
        - intro H. inversion H; subst; try discriminate HF; try contradiction. apply bind_err. left. apply take_err. split; [reflexivity|]. congruence. }
      destruct p as [| | |w|w| |]; cbn [read_prim].
      + destruct bs as [|b r]; [split; [intros [= <-]; constructor|]; inversion 1; subst; try reflexivity; discriminate|].
        destruct (N.eqb_spec b 0) as [E0|E0]; [split; [discriminate|]; inversion 1; subst; try discriminate; contradiction|].
        destruct (N.eqb_spec b 1) as [E1|E1]; [split; [discriminate|]; inversion 1; subst; try discriminate; contradiction|].
        split; [intros [= <-]; now constructor|]. inversion 1; subst; try reflexivity; discriminate.
      + split.
        * intro H. apply bind_err in H as [H|([b r] & T & H)]; [apply take_err in H as [-> L]; eapply Wp_short; [reflexivity|exact L]|].
          cbn [fst snd] in H. cbv zeta in H. destruct (is_scalar (le_val b)) eqn:S; [discriminate|]. injection H as <-. apply take_ok in T as [-> L]. now constructor.
        * intro H. apply bind_err. inversion H as [| | |p k bs0 HF L| | |b r L S| | | |]; subst.
          -- injection HF as <-. left. apply take_err. auto.
          -- right. exists (b, r). rewrite <- L, take_app. split; [reflexivity|]. cbn [fst snd]. cbv zeta. rewrite S. reflexivity.
      + split.
        * intro H. apply bind_err in H as [H|([n r] & D & H)].
          -- apply compact_err in H as [[-> H]|[-> H]]; [now constructor|now constructor|exact HB].
          -- cbn [fst snd] in H. apply compact_decode_sound in D as (pre & -> & HC & L); [|exact HB].
             apply bind_err in H as [H|([b r'] & T & H)].
             ++ apply take_err in H as [-> L']. eapply Wp_str_short; [exact HC|exact L|lia].
             ++ cbn [fst snd] in H. apply take_ok in T as [-> L']. destruct (utf8_decode b) as [s|] eqn:U; [discriminate|]. injection H as <-.
                replace n with (N.of_nat (length b)) in * by lia. constructor; [exact HC|exact L|]. intros s HS E.
                rewrite (proj2 (utf8_decode_iff b s) (conj (eq_sym E) HS)) in U. discriminate.
        * intro H. apply bind_err. inversion H as [| | |p k bs0 HF L| | | |bs0 TR|bs0 NC|n pre r HC L L'|pre b r HC L HU]; subst.
          -- discriminate HF.
          -- left. apply compact_err; [exact HB|]. auto.
          -- left. apply compact_err; [exact HB|]. auto.
          -- right. exists (n, r). split; [now apply compact_decode_complete|]. cbn [fst snd]. apply bind_err. left. apply take_err. split; [reflexivity|lia].
          -- right. exists (N.of_nat (length b), b ++ r). split; [now apply compact_decode_complete|]. cbn [fst snd]. apply bind_err. right. exists (b, r).
             rewrite Nat2N.id, take_app. split; [reflexivity|]. cbn [fst snd]. destruct (utf8_decode b) as [s|] eqn:U; [|reflexivity].
             apply utf8_decode_iff in U as [E HS]. exfalso. exact (HU s HS (eq_sym E)).
      + apply FX; [destruct w; reflexivity|intro; eexists; reflexivity|discriminate].
      + apply FX; [destruct w; reflexivity|intro; eexists; reflexivity|discriminate].
      + apply FX; [reflexivity|intro; eexists; reflexivity|discriminate].
      + apply FX; [reflexivity|intro; eexists; reflexivity|discriminate].
  Qed.
End Prim.

Section Main.
  Context {TId C : Type} (reg : TId -> resolution TId) (X : ext) (ctxf : TId -> C).
  Local Notation dec := (decode reg X ctxf).
  Local Notation ENCS := (encs reg (x_maxbits X) (x_len X) ctxf PU256).
  Local Notation bad := (wrong reg (x_maxbits X) (x_len X)).
  Local Notation goes := (reaches reg (x_maxbits X) (x_len X) ctxf).
  Local Notation nxt := (next reg (x_maxbits X) (x_len X) ctxf).

  Lemma named_err (d : TId -> bytes -> dres (value C)) fs : forall bs e, decode_named d fs bs = Err e <-> decode_items d (map snd fs) bs = Err e.
  Proof.
    induction fs as [|[n t] fs IH]; intros bs e; cbn [decode_named map snd decode_items]; [split; discriminate|].
    destruct (d t bs) as [[v b]|e']; cbn [bind snd]; [|split; intros [= <-]; reflexivity].
    split; intro H; (apply bind_err in H as [H|(x & _ & H)]; [|discriminate]); apply bind_err; left; apply IH; exact H.
  Qed.
  Lemma visit_err (d : TId -> bytes -> dres (value C)) fs bs e : visit_composite d fs bs = Err e <-> decode_items d (map snd fs) bs = Err e.
  Proof.
    unfold visit_composite. destruct (_ && _); split; intro H.
    - apply bind_err in H as [H|(x & _ & H)]; [|discriminate]. apply named_err in H. exact H.
    - apply bind_err. left. apply named_err. exact H.
    - apply bind_err in H as [H|(x & _ & H)]; [|discriminate]. exact H.
    - apply bind_err. left. exact H.
  Qed.

  Lemma items_next f c : (forall t bs e, is_bytes bs -> dec f c t bs = Err e -> e <> EHang -> exists c' t' bs', goes c t bs c' t' bs' /\ bad c' t' bs' e) ->
    forall ts bs e, is_bytes bs -> decode_items (dec f c) ts bs = Err e -> e <> EHang ->
    exists t1 bs1 c' t' bs', nxt c ts bs t1 bs1 /\ goes c t1 bs1 c' t' bs' /\ bad c' t' bs' e.
  Proof.
    intros HD. induction ts as [|t ts IH]; intros bs e HB H HE; [discriminate|]. cbn [decode_items] in H.
    apply bind_err in H as [H|([v b] & D & H)].
    - destruct (HD t bs e HB H HE) as (c' & t' & bs' & G & W). exists t, bs, c', t', bs'. split; [|auto].
      exists [], ts, [], []. repeat split. constructor.
    - cbn [snd] in H. apply bind_err in H as [H|(y & _ & H)]; [|discriminate].
      apply decode_sound in D as (pre & -> & E); [|exact HB]. apply is_bytes_app in HB as [_ HB].
      destruct (IH b e HB H HE) as (t1 & bs1 & c' & t' & bs' & (ts1 & ts2 & vs & b1 & -> & -> & ES) & G & W).
      exists t1, bs1, c', t', bs'. split; [|auto]. exists (t :: ts1), ts2, (v :: vs), (pre ++ b1). repeat split; [apply app_assoc|]. constructor; assumption.
  Qed.

  Theorem decode_err_true : forall fuel c t bs e, is_bytes bs -> dec fuel c t bs = Err e -> e <> EHang ->
    exists c' t' bs', goes c t bs c' t' bs' /\ bad c' t' bs' e.
  Proof.
    induction fuel as [|f IH]; intros c t bs e HB H HE; [cbn in H; congruence|]. cbn [decode] in H.
    assert (HERE : bad c t bs e -> exists c' t' bs', goes c t bs c' t' bs' /\ bad c' t' bs' e) by (intro W; exists c, t, bs; split; [constructor|exact W]).
    destruct (reg t) as [| |[fs|vs|t'|t' n|ts|p|t'|st o]] eqn:R.
    - injection H as <-. apply HERE. now constructor.
    - injection H as <-. apply HERE. now constructor.
    - destruct (c && negb (length fs =? 1)%nat) eqn:EC.
      + injection H as <-. apply HERE. apply andb_prop in EC as [-> EC]. apply negb_true_iff, Nat.eqb_neq in EC. eapply Wr_not_compact; [exact R|exact EC].
      + apply bind_err in H as [H|(x & _ & H)]; [|discriminate]. apply visit_err in H.
        apply (items_next f c (IH c)) in H as (t1 & bs1 & c' & t2 & bs2 & N & G & W); [|exact HB|exact HE].
        exists c', t2, bs2. split; [|exact W]. eapply Re_composite; try eassumption. intros ->. cbn [andb] in EC. apply negb_false_iff, Nat.eqb_eq in EC. exact EC.
    - destruct c; [injection H as <-; apply HERE; eapply Wr_not_compact; [exact R|exact I]|].
      destruct bs as [|idx bs]; [injection H as <-; apply HERE; eapply Wr_variant_short; exact R|].
      destruct (find (fun v0 => vi_index v0 =? idx) vs) as [[name i fs]|] eqn:FD.
      + apply bind_err in H as [H|(x & _ & H)]; [|discriminate]. apply visit_err in H. cbn [vi_fields] in H. inversion HB as [|? ? Hi HB']; subst.
        apply (items_next f false (IH false)) in H as (t1 & bs1 & c' & t2 & bs2 & N & G & W); [|exact HB'|exact HE].
        apply find_index_split in FD as (l1 & l2 & -> & Ei & Hn). cbn [vi_index] in Ei. subst i.
        exists c', t2, bs2. split; [|exact W]. eapply Re_variant; eassumption.
      + injection H as <-. apply HERE. eapply Wr_variant; [exact R|]. intro HI. apply in_map_iff in HI as (v & E & HI).
        pose proof (find_none _ _ FD v HI) as FN. cbn in FN. rewrite E, N.eqb_refl in FN. discriminate.
    - destruct c; [injection H as <-; apply HERE; eapply Wr_not_compact; [exact R|exact I]|].
      apply bind_err in H as [H|([n b] & D & H)].
      + apply compact_err in H as [[-> H]|[-> H]]; [| |exact HB]; apply HERE; [eapply Wr_sequence_short|eapply Wr_sequence]; eassumption.
      + cbn [fst snd] in H. apply compact_decode_sound in D as (pre & -> & HC & L); [|exact HB]. apply is_bytes_app in HB as [_ HB].
        unfold to_unnamed in H. apply bind_err in H as [H|(x & _ & H)]; [|discriminate].
        apply (items_next f false (IH false)) in H as (t1 & bs1 & c' & t2 & bs2 & N & G & W); [|exact HB|exact HE].
        exists c', t2, bs2. split; [|exact W]. eapply Re_sequence; eassumption.
    - destruct c; [injection H as <-; apply HERE; eapply Wr_not_compact; [exact R|exact I]|].
      unfold to_unnamed in H. apply bind_err in H as [H|(x & _ & H)]; [|discriminate].
      apply (items_next f false (IH false)) in H as (t1 & bs1 & c' & t2 & bs2 & N & G & W); [|exact HB|exact HE].
      exists c', t2, bs2. split; [|exact W]. eapply Re_array; eassumption.
    - destruct (c && negb (length ts =? 1)%nat) eqn:EC.
      + injection H as <-. apply HERE. apply andb_prop in EC as [-> EC]. apply negb_true_iff, Nat.eqb_neq in EC. eapply Wr_not_compact; [exact R|exact EC].
      + unfold to_unnamed in H. apply bind_err in H as [H|(x & _ & H)]; [|discriminate].
        apply (items_next f c (IH c)) in H as (t1 & bs1 & c' & t2 & bs2 & N & G & W); [|exact HB|exact HE].
        exists c', t2, bs2. split; [|exact W]. eapply Re_tuple; try eassumption. intros ->. cbn [andb] in EC. apply negb_false_iff, Nat.eqb_eq in EC. exact EC.
    - apply bind_err in H as [H|(x & _ & H)]; [|discriminate]. apply prim_err in H; [|exact HB]. apply HERE. eapply Wr_prim; eassumption.
    - destruct (IH true t' bs e HB H HE) as (c' & t2 & bs2 & G & W). exists c', t2, bs2. split; [|exact W]. eapply Re_compact; eassumption.
    - destruct c; [injection H as <-; apply HERE; eapply Wr_not_compact; [exact R|exact I]|].
      apply bind_err in H as [H|(x & _ & H)]; [|discriminate]. apply HERE. unfold decode_bits in H. apply bind_err in H as [H|([n b] & D & H)].
      + apply compact_err in H as [[-> H]|[-> H]]; [eapply Wr_bits_prefix_short|eapply Wr_bits_prefix|]; eassumption.
      + cbn [fst snd] in H. cbv zeta in H. apply compact_decode_sound in D as (pre & -> & HC & L); [|exact HB].
        destruct (N.ltb_spec (x_maxbits X) n) as [M|M]; [injection H as <-; eapply Wr_bits_many; eassumption|].
        apply bind_err in H as [H|(x & _ & H)]; [|discriminate]. apply take_err in H as [-> L']. eapply Wr_bits_short; try eassumption.
  Qed.

  (** The other direction. *)
  Lemma wrong_reported c t bs e : is_bytes bs -> bad c t bs e -> forall fuel, (1 <= fuel)%nat -> dec fuel c t bs = Err e.
  Proof.
    intros HB W [|f] L; [lia|]. clear L. cbn [decode].
    destruct W as [c t bs R|c t bs R|c t p bs e R WP|t ty bs R HT|t vs R|t vs idx r R NI|t t' bs R TR|t t' bs R NC|t st o bs R TR|t st o bs R NC|t st o n pre r R HC L M|t st o n pre r R HC L M S]; rewrite R.
    - reflexivity.
    - reflexivity.
    - apply bind_err. left. apply prim_err; assumption.
    - destruct ty as [fs|vs|t'|t' n|ts|p|t'|st o]; try contradiction; try reflexivity; apply Nat.eqb_neq in HT; rewrite HT; reflexivity.
    - reflexivity.
    - destruct (find (fun v => vi_index v =? idx) vs) as [v|] eqn:FD; [|reflexivity]. exfalso. apply find_some in FD as [HI E]. apply N.eqb_eq in E. apply NI. rewrite <- E. now apply in_map.
    - apply bind_err. left. apply compact_err; auto.
    - apply bind_err. left. apply compact_err; auto.
    - apply bind_err. left. apply bind_err. left. apply compact_err; auto.
    - apply bind_err. left. apply bind_err. left. apply compact_err; auto.
    - apply bind_err. left. apply bind_err. right. exists (n, r). split; [now apply compact_decode_complete|]. cbn [fst snd]. cbv zeta. replace (x_maxbits X <? n) with true by lia. reflexivity.
    - apply bind_err. left. apply bind_err. right. exists (n, r). split; [now apply compact_decode_complete|]. cbn [fst snd]. cbv zeta. replace (x_maxbits X <? n) with false by lia.
      apply bind_err. left. apply take_err. split; [reflexivity|]. exact S.
  Qed.

  Lemma next_bytes c ts bs t bs' : is_bytes bs -> nxt c ts bs t bs' -> is_bytes bs'.
  Proof. intros HB (ts1 & ts2 & vs & b & _ & -> & _). now apply is_bytes_app in HB. Qed.

  Lemma items_then (d : TId -> bytes -> dres (value C)) t1 ts2 bs1 e : d t1 bs1 = Err e ->
    forall ts1 bs vs, decode_items d ts1 bs = Ok (vs, bs1) -> decode_items d (ts1 ++ t1 :: ts2) bs = Err e.
  Proof.
    intro H1. induction ts1 as [|t ts1 IH]; intros bs vs H2; cbn [app decode_items] in *.
    - injection H2 as _ ->. rewrite H1. reflexivity.
    - apply bind_ok in H2 as ([v b1] & D & H2). rewrite D. cbn [bind snd] in *. apply bind_ok in H2 as ([vs' b2] & D2 & H2). injection H2 as _ E. cbn [snd] in E. subst b2.
      apply bind_err. left. eapply IH. exact D2.
  Qed.
  Lemma items_reported c ts bs t1 bs1 e : nxt c ts bs t1 bs1 -> (exists f0, forall fuel, (f0 <= fuel)%nat -> dec fuel c t1 bs1 = Err e) ->
    exists f0, forall fuel, (f0 <= fuel)%nat -> decode_items (dec fuel c) ts bs = Err e.
  Proof.
    intros (ts1 & ts2 & vs & b & -> & -> & ES) [f1 H1].
    destruct (proj2 (decode_complete_mut reg X ctxf false) _ _ _ _ ES) as [f2 H2].
    exists (Nat.max f1 f2). intros fuel L. eapply items_then; [apply H1; lia|]. apply H2. lia.
  Qed.

  Theorem decode_err_reported c t bs c' t' bs' e : goes c t bs c' t' bs' -> is_bytes bs -> bad c' t' bs' e ->
    exists f0, forall fuel, (f0 <= fuel)%nat -> dec fuel c t bs = Err e.
  Proof.
    induction 1 as [c t bs|c t t' bs c2 t2 bs2 R G IH|c t fs bs t1 bs1 c2 t2 bs2 R HC N G IH|c t ts bs t1 bs1 c2 t2 bs2 R HC N G IH
      |t l1 name idx fs l2 bs t1 bs1 c2 t2 bs2 R NI N G IH|t t' n pre bs t1 bs1 c2 t2 bs2 R HC HL N G IH|t t' n bs t1 bs1 c2 t2 bs2 R N G IH]; intros HB W.
    - exists 1%nat. now apply wrong_reported.
    - destruct (IH HB W) as [f0 H]. exists (S f0). intros [|f] L; [lia|]. cbn [decode]. rewrite R. apply H. lia.
    - destruct (items_reported c _ _ _ _ e N (IH (next_bytes _ _ _ _ _ HB N) W)) as [f0 H]. exists (S f0). intros [|f] L; [lia|]. cbn [decode]. rewrite R.
      replace (c && negb (length fs =? 1)%nat) with false by (destruct c; [rewrite HC by reflexivity|]; reflexivity).
      apply bind_err. left. apply visit_err. apply H. lia.
    - destruct (items_reported c _ _ _ _ e N (IH (next_bytes _ _ _ _ _ HB N) W)) as [f0 H]. exists (S f0). intros [|f] L; [lia|]. cbn [decode]. rewrite R.
      replace (c && negb (length ts =? 1)%nat) with false by (destruct c; [rewrite HC by reflexivity|]; reflexivity).
      unfold to_unnamed. apply bind_err. left. apply H. lia.
    - inversion HB as [|? ? Hi HB']; subst.
      destruct (items_reported false _ _ _ _ e N (IH (next_bytes _ _ _ _ _ HB' N) W)) as [f0 H]. exists (S f0). intros [|f] L; [lia|]. cbn [decode]. rewrite R.
      pose proof (find_index_app l1 l2 (VInfo name idx fs) NI) as FD. cbn [vi_index] in FD. rewrite FD. cbn [vi_fields vi_name].
      apply bind_err. left. apply visit_err. apply H. lia.
    - apply is_bytes_app in HB as [_ HB].
      destruct (items_reported false _ _ _ _ e N (IH (next_bytes _ _ _ _ _ HB N) W)) as [f0 H]. exists (S f0). intros [|f] L; [lia|]. cbn [decode]. rewrite R.
      rewrite (compact_decode_complete _ _ _ _ HC HL). cbn [bind fst snd]. unfold to_unnamed. apply bind_err. left. apply H. lia.
    - destruct (items_reported false _ _ _ _ e N (IH (next_bytes _ _ _ _ _ HB N) W)) as [f0 H]. exists (S f0). intros [|f] L; [lia|]. cbn [decode]. rewrite R.
      unfold to_unnamed. apply bind_err. left. apply H. lia.
  Qed.
End Main.
