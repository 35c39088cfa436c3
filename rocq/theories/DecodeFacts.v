(** * DecodeFacts: the decoder against the encoding relation. *)
From Verif Require Import Base Value Registry Spec_Scale Scale ScaleFacts BitsFacts Decode.
Open Scope N_scope.

Lemma decode_items_length {TId C} (dec : TId -> bytes -> dres (value C)) ts : forall bs vs r,
  decode_items dec ts bs = Ok (vs, r) -> length vs = length ts.
Proof.
  induction ts as [|t ts IH]; intros bs vs r H; cbn [decode_items] in H.
  - injection H as <- <-. reflexivity.
  - apply bind_ok in H as ([v b1] & _ & H). apply bind_ok in H as ([vs' b2] & H & [= <- <-]). cbn [fst length] in *.
    f_equal. eapply IH; exact H.
Qed.

Lemma decode_named_iff {TId C} (dec : TId -> bytes -> dres (value C)) fs : has_unnamed fs = false -> forall bs kvs r,
  decode_named dec fs bs = Ok (kvs, r) <->
  decode_items dec (map snd fs) bs = Ok (map snd kvs, r) /\ map fst fs = map (fun kv => Some (fst kv)) kvs.
Proof.
  induction fs as [|[name t] fs IH]; intros HU bs kvs r; cbn [decode_named decode_items map].
  - split.
    + intros [= <- <-]. split; reflexivity.
    + intros [[= E <-] _]. destruct kvs; [reflexivity|discriminate].
  - unfold has_unnamed in HU. cbn [existsb fst snd] in HU. apply orb_false_iff in HU as [HU1 HU2]. fold (has_unnamed fs) in HU2.
    destruct name as [n|]; [|discriminate]. split.
    + intro H. apply bind_ok in H as ([v b1] & H1 & H). apply bind_ok in H as ([kvs' b2] & H2 & [= <- <-]). cbn [fst snd] in *.
      apply IH in H2 as [H2 E]; [|exact HU2]. split.
      * rewrite H1. cbn [bind snd]. rewrite H2. reflexivity.
      * cbn [map fst snd]. rewrite E. reflexivity.
    + intros [H E]. apply bind_ok in H as ([v b1] & H1 & H). apply bind_ok in H as ([vs' b2] & H2 & [= Ev <-]). cbn [fst snd] in *.
      destruct kvs as [|[k w] kvs]; [discriminate|]. cbn [map fst snd] in *. injection Ev as -> ->. injection E as -> E.
      rewrite H1. cbn [bind snd]. rewrite (proj2 (IH HU2 b1 kvs b2) (conj H2 E)). reflexivity.
Qed.

Lemma has_unnamed_iff {TId} (fs : list (field TId)) : has_unnamed fs = true <-> In None (map fst fs).
Proof.
  unfold has_unnamed. rewrite existsb_exists. rewrite in_map_iff. split.
  - intros ([o t] & H & E). exists (o, t). cbn in *. destruct o; [discriminate|]. auto.
  - intros ([o t] & E & H). exists (o, t). cbn in *. subst o. auto.
Qed.

Lemma visit_composite_iff {TId C} (dec : TId -> bytes -> dres (value C)) fs bs cmp r :
  visit_composite dec fs bs = Ok (cmp, r) <->
  exists vs, decode_items dec (map snd fs) bs = Ok (vs, r) /\ fields_shape (map fst fs) vs cmp.
Proof.
  unfold visit_composite. destruct (Nat.ltb_spec 0 (length fs)) as [L|L].
  - destruct (has_unnamed fs) eqn:U; cbn [andb negb].
    + split.
      * intro H. apply bind_ok in H as ([vs b] & H & [= <- <-]). exists vs. split; [exact H|]. constructor.
        -- apply decode_items_length in H. rewrite map_length in *. lia.
        -- right. apply has_unnamed_iff. exact U.
      * intros (vs & H & S). rewrite H. cbn [bind fst snd]. apply has_unnamed_iff in U.
        inversion S as [kvs Hne E1 E2 E3|names vs' HL Hn E1 E2 E3]; subst; [|reflexivity].
        exfalso. rewrite <- E1 in U. apply in_map_iff in U as (kv & E & _). discriminate.
    + split.
      * intro H. apply bind_ok in H as ([kvs b] & H & [= <- <-]). cbn [fst snd]. apply decode_named_iff in H as [H E]; [|exact U].
        exists (map snd kvs). split; [exact H|]. rewrite E. constructor. intros ->. destruct fs; cbn in *; [lia|discriminate].
      * intros (vs & H & S). inversion S as [kvs Hne E1 E2 E3|names vs' HL Hn E1 E2 E3]; subst.
        -- rewrite (proj2 (decode_named_iff dec fs U bs kvs r) (conj H (eq_sym E1))). reflexivity.
        -- exfalso. destruct Hn as [E|E].
           ++ destruct fs; [cbn in L; lia|discriminate].
           ++ apply has_unnamed_iff in E. congruence.
  - destruct fs as [|f fs]; [|cbn in L; lia]. cbn [andb map decode_items bind fst snd]. split.
    + intros [= <- <-]. exists []. split; [reflexivity|]. constructor; [reflexivity|left; reflexivity].
    + intros (vs & [= <- <-] & S). inversion S as [kvs Hne E1 E2 E3|names vs' HL Hn E1 E2 E3]; subst; [|reflexivity].
      destruct kvs; [contradiction|discriminate].
Qed.

Section Facts.
  Context {TId C : Type} (reg : TId -> resolution TId) (X : ext) (ctxf : TId -> C).
  Local Notation dec := (decode reg X ctxf).
  Local Notation ENC := (enc reg (x_maxbits X) (x_len X) ctxf PU256).
  Local Notation ENCS := (encs reg (x_maxbits X) (x_len X) ctxf PU256).

  Lemma decode_items_sound (d : TId -> bytes -> dres (value C)) c :
    (forall t bs v r, is_bytes bs -> d t bs = Ok (v, r) -> exists pre, bs = pre ++ r /\ ENC false c t v pre) ->
    forall ts bs vs r, is_bytes bs -> decode_items d ts bs = Ok (vs, r) -> exists pre, bs = pre ++ r /\ ENCS false c ts vs pre.
  Proof.
    intro HD. induction ts as [|t ts IH]; intros bs vs r HB H; cbn [decode_items] in H.
    - injection H as <- <-. exists []. split; [reflexivity|constructor].
    - apply bind_ok in H as ([v b1] & H1 & H). apply bind_ok in H as ([vs' b2] & H2 & [= <- <-]). cbn [fst snd] in *.
      apply HD in H1 as (p1 & -> & E1); [|exact HB]. apply is_bytes_app in HB as [_ HB].
      apply IH in H2 as (p2 & -> & E2); [|exact HB]. exists (p1 ++ p2). split; [apply app_assoc|]. constructor; assumption.
  Qed.

  Lemma find_index_split (vs : list (vinfo TId)) idx v : find (fun v => vi_index v =? idx) vs = Some v ->
    exists l1 l2, vs = l1 ++ v :: l2 /\ vi_index v = idx /\ ~ In idx (map vi_index l1).
  Proof.
    induction vs as [|u vs IH]; cbn [find]; [discriminate|]. destruct (N.eqb_spec (vi_index u) idx) as [E|E].
    - intros [= <-]. exists [], vs. split; [reflexivity|]. split; [exact E|]. intros [].
    - intro H. apply IH in H as (l1 & l2 & -> & Hi & Hn). exists (u :: l1), l2. split; [reflexivity|]. split; [exact Hi|].
      cbn [map]. intros [H|H]; [exact (E H)|exact (Hn H)].
  Qed.

  Lemma find_index_app (l1 l2 : list (vinfo TId)) v : ~ In (vi_index v) (map vi_index l1) ->
    find (fun u => vi_index u =? vi_index v) (l1 ++ v :: l2) = Some v.
  Proof.
    induction l1 as [|u l1 IH]; cbn [app find map]; intro H.
    - rewrite N.eqb_refl. reflexivity.
    - destruct (N.eqb_spec (vi_index u) (vi_index v)) as [E|E]; [exfalso; apply H; left; exact E|]. apply IH. intro; apply H; right; assumption.
  Qed.

  Theorem decode_sound : forall fuel c t bs v r, is_bytes bs -> dec fuel c t bs = Ok (v, r) ->
    exists pre, bs = pre ++ r /\ ENC false c t v pre.
  Proof.
    induction fuel as [|f IH]; intros c t bs v r HB H; [discriminate|]. cbn [decode] in H.
    destruct (reg t) as [| |[fs|vs|t'|t' n|ts|p|t'|st o]] eqn:R; try discriminate.
    - destruct (c && negb (length fs =? 1)%nat) eqn:EC; [discriminate|].
      apply bind_ok in H as ([cmp b] & H & [= <- <-]). cbn [fst snd]. apply visit_composite_iff in H as (vs & H & S).
      apply (decode_items_sound _ c) in H as (pre & -> & E); [|intros; eapply IH; eauto|exact HB].
      exists pre. split; [reflexivity|]. eapply E_composite; eauto. intros ->. cbn [andb] in EC. apply negb_false_iff, Nat.eqb_eq in EC. exact EC.
    - destruct c; [discriminate|]. destruct bs as [|idx bs]; [discriminate|].
      destruct (find (fun v0 => vi_index v0 =? idx) vs) as [[name i fs]|] eqn:F; [|discriminate].
      apply bind_ok in H as ([cmp b] & H & [= <- <-]). cbn [fst snd vi_fields vi_name] in *. apply visit_composite_iff in H as (ws & H & S).
      inversion HB as [|? ? Hi HB']; subst.
      apply (decode_items_sound _ false) in H as (pre & -> & E); [|intros; eapply IH; eauto|exact HB'].
      apply find_index_split in F as (l1 & l2 & -> & Ei & Hn). cbn [vi_index] in Ei. subst i.
      exists (idx :: pre). split; [reflexivity|]. eapply E_variant; eauto.
    - destruct c; [discriminate|]. apply bind_ok in H as ([n b] & H1 & H). cbn [fst snd] in H.
      apply compact_decode_sound in H1 as (p1 & -> & HC & Hn); [|exact HB]. apply is_bytes_app in HB as [_ HB].
      unfold to_unnamed in H. apply bind_ok in H as ([vs b'] & H & [= <- <-]). cbn [fst snd].
      pose proof (decode_items_length _ _ _ _ _ H) as L. rewrite repeat_length in L.
      apply (decode_items_sound _ false) in H as (p2 & -> & E); [|intros; eapply IH; eauto|exact HB].
      exists (p1 ++ p2). split; [apply app_assoc|]. eapply E_sequence; eauto; rewrite L, ?N2Nat.id; assumption.
    - destruct c; [discriminate|]. unfold to_unnamed in H. apply bind_ok in H as ([vs b'] & H & [= <- <-]). cbn [fst snd].
      pose proof (decode_items_length _ _ _ _ _ H) as L. rewrite repeat_length in L.
      apply (decode_items_sound _ false) in H as (p2 & -> & E); [|intros; eapply IH; eauto|exact HB].
      exists p2. split; [reflexivity|]. eapply E_array; eauto; rewrite L, ?N2Nat.id; [reflexivity|assumption].
    - destruct (c && negb (length ts =? 1)%nat) eqn:EC; [discriminate|].
      unfold to_unnamed in H. apply bind_ok in H as ([vs b'] & H & [= <- <-]). cbn [fst snd].
      apply (decode_items_sound _ c) in H as (p2 & -> & E); [|intros; eapply IH; eauto|exact HB].
      exists p2. split; [reflexivity|]. eapply E_tuple; eauto. intros ->. cbn [andb] in EC. apply negb_false_iff, Nat.eqb_eq in EC. exact EC.
    - apply bind_ok in H as ([x b] & H & [= <- <-]). cbn [fst snd]. apply read_prim_iff in H as (pre & -> & HP); [|exact HB].
      exists pre. split; [reflexivity|]. destruct c; cbn [prim_enc_c] in HP.
      + destruct HP as (w & n & -> & -> & Hn & HC). eapply E_compact_uint; eauto.
      + eapply E_prim; eauto.
    - apply IH in H as (pre & -> & E); [|exact HB]. exists pre. split; [reflexivity|]. eapply E_compact; eauto.
    - destruct c; [discriminate|]. apply bind_ok in H as ([b1 b] & H & [= <- <-]). cbn [fst snd].
      apply decode_bits_iff in H as (pre & pay & -> & HC & Hn & Hm & HP); [|exact HB].
      exists (pre ++ pay). split; [rewrite app_assoc; reflexivity|]. eapply E_bits; eauto.
  Qed.

  Lemma encs_length lb strict c ts vs bs : encs reg (x_maxbits X) lb ctxf PU256 strict c ts vs bs -> length vs = length ts.
  Proof. induction 1; cbn [length]; congruence. Qed.

  Lemma decode_complete_mut strict :
    (forall c t v bs, ENC strict c t v bs -> exists f0, forall fuel, (f0 <= fuel)%nat -> forall r, dec fuel c t (bs ++ r) = Ok (v, r)) /\
    (forall c ts vs bs, ENCS strict c ts vs bs -> exists f0, forall fuel, (f0 <= fuel)%nat -> forall r, decode_items (dec fuel c) ts (bs ++ r) = Ok (vs, r)).
  Proof.
    apply enc_encs_ind.
    - intros t p x bs R HP. exists 1%nat. intros [|f] Hf r; [lia|]. cbn [decode]. rewrite R.
      assert (H : read_prim (x_len X) PU256 false p (bs ++ r) = Ok (x, r)).
      { destruct HP; cbn [read_prim]; same_sizes.
        - reflexivity.
        - reflexivity.
        - destruct H0 as (B & L & E). rewrite <- L, take_app. cbn [bind fst snd]. rewrite E. cbv zeta. rewrite H. reflexivity.
        - rewrite <- app_assoc, (compact_decode_complete _ _ _ _ H1 H0). cbn [bind fst snd]. rewrite Nat2N.id, take_app. cbn [bind fst snd].
          rewrite (proj2 (utf8_decode_iff _ s) (conj eq_refl H)). reflexivity.
        - destruct H as (B & L & E). rewrite <- L, take_app. cbn [bind fst snd]. rewrite E. reflexivity.
        - destruct H0 as (B & L & E). rewrite <- L, take_app. cbn [bind fst snd]. do 3 f_equal.
          pose proof (le_val_bound bs B) as BU. rewrite L, <- wbits_pow in BU.
          apply signed_of_spec; [pose proof (wbits_ge w); lia|exact BU|]. split; assumption.
        - rewrite <- H0, take_app. reflexivity.
        - rewrite <- H0, take_app. reflexivity. }
      rewrite H. reflexivity.
    - intros t w n bs R Hn HC. exists 1%nat. intros [|f] Hf r; [lia|]. cbn [decode]. rewrite R. cbn [read_prim].
      rewrite (compact_decode_complete _ _ _ _ HC Hn). reflexivity.
    - intros c t t' v bs R _ [f0 IH]. exists (S f0). intros [|f] Hf r; [lia|]. cbn [decode]. rewrite R. apply IH. lia.
    - intros c t fs vs cmp bs R HC _ [f0 IH] Sh. exists (S f0). intros [|f] Hf r; [lia|]. cbn [decode]. rewrite R.
      replace (c && negb (length fs =? 1)%nat) with false by (destruct c; [rewrite HC by reflexivity|]; reflexivity).
      rewrite (proj2 (visit_composite_iff _ fs (bs ++ r) cmp r)); [reflexivity|]. exists vs. split; [apply IH; lia|exact Sh].
    - intros c t ts vs bs R HC _ [f0 IH]. exists (S f0). intros [|f] Hf r; [lia|]. cbn [decode]. rewrite R.
      replace (c && negb (length ts =? 1)%nat) with false by (destruct c; [rewrite HC by reflexivity|]; reflexivity).
      unfold to_unnamed. rewrite IH by lia. reflexivity.
    - intros t l1 name idx fs l2 vs cmp bs R Hn Hi _ [f0 IH] Sh. exists (S f0). intros [|f] Hf r; [lia|]. cbn [decode app]. rewrite R.
      pose proof (find_index_app l1 l2 (VInfo name idx fs) Hn) as F. cbn [vi_index] in F. rewrite F. cbn [vi_fields vi_name].
      rewrite (proj2 (visit_composite_iff _ fs (bs ++ r) cmp r)); [reflexivity|]. exists vs. split; [apply IH; lia|exact Sh].
    - intros t t' vs pre bs R HL HC _ [f0 IH]. exists (S f0). intros [|f] Hf r; [lia|]. cbn [decode]. rewrite R.
      rewrite <- app_assoc, (compact_decode_complete _ _ _ _ HC HL). cbn [bind fst snd]. rewrite Nat2N.id.
      unfold to_unnamed. rewrite IH by lia. reflexivity.
    - intros t t' n vs bs R HL _ [f0 IH]. exists (S f0). intros [|f] Hf r; [lia|]. cbn [decode]. rewrite R.
      rewrite <- HL, Nat2N.id. unfold to_unnamed. rewrite IH by lia. reflexivity.
    - intros t st o b pre bs R Hl Hm HC HP. exists 1%nat. intros [|f] Hf r; [lia|]. cbn [decode]. rewrite R.
      assert (H : decode_bits (x_maxbits X) st o ((pre ++ bs) ++ r) = Ok (b, r)).
      { unfold decode_bits. rewrite <- app_assoc, (compact_decode_complete 32 _ _ _ HC Hl). cbn [bind fst snd]. cbv zeta.
        rewrite Nat2N.id. replace (x_maxbits X <? N.of_nat (length b)) with false by lia.
        pose proof HP as (HPB & HPL & _). cbv zeta in HPL. same_sizes. fold (words_for st (length b)) in HPL. rewrite <- HPL, take_app. cbn [bind fst snd].
        do 2 f_equal. apply payload_iff_unpack; [exact HPB|exact HPL|]. eapply payload_weaken; exact HP. }
      rewrite H. reflexivity.
    - intros c. exists 0%nat. intros fuel _ r. reflexivity.
    - intros c t ts v vs b bs _ [f1 IH1] _ [f2 IH2]. exists (Nat.max f1 f2). intros fuel Hf r. cbn [decode_items].
      rewrite <- app_assoc, IH1 by lia. cbn [bind snd]. rewrite IH2 by lia. reflexivity.
  Qed.

  Definition decode_complete strict := proj1 (decode_complete_mut strict).

  Lemma enc_weaken_mut strict :
    (forall c t v bs, ENC strict c t v bs -> ENC false c t v bs) /\ (forall c ts vs bs, ENCS strict c ts vs bs -> ENCS false c ts vs bs).
  Proof.
    apply enc_encs_ind; intros; try (econstructor; eauto; fail).
    eapply E_bits; eauto. eapply payload_weaken; eauto.
  Qed.

  (** More fuel never changes a successful result. *)
  Lemma decode_items_mono (d1 d2 : TId -> bytes -> dres (value C)) :
    (forall t bs, d1 t bs = Err EHang \/ d1 t bs = d2 t bs) ->
    forall ts bs, decode_items d1 ts bs = Err EHang \/ decode_items d1 ts bs = decode_items d2 ts bs.
  Proof.
    intro H. induction ts as [|t ts IH]; intro bs; [right; reflexivity|]. cbn [decode_items].
    destruct (H t bs) as [E|E]; rewrite E; [left; reflexivity|]. destruct (d2 t bs) as [[v b]|e]; [|right; reflexivity]. cbn [bind snd].
    destruct (IH b) as [E'|E']; rewrite E'; [left|right]; reflexivity.
  Qed.
  Lemma decode_named_mono (d1 d2 : TId -> bytes -> dres (value C)) :
    (forall t bs, d1 t bs = Err EHang \/ d1 t bs = d2 t bs) ->
    forall fs bs, decode_named d1 fs bs = Err EHang \/ decode_named d1 fs bs = decode_named d2 fs bs.
  Proof.
    intro H. induction fs as [|[n t] fs IH]; intro bs; [right; reflexivity|]. cbn [decode_named].
    destruct (H t bs) as [E|E]; rewrite E; [left; reflexivity|]. destruct (d2 t bs) as [[v b]|e]; [|right; reflexivity]. cbn [bind snd].
    destruct (IH b) as [E'|E']; rewrite E'; [left|right]; reflexivity.
  Qed.
  Lemma visit_composite_mono (d1 d2 : TId -> bytes -> dres (value C)) :
    (forall t bs, d1 t bs = Err EHang \/ d1 t bs = d2 t bs) ->
    forall fs bs, visit_composite d1 fs bs = Err EHang \/ visit_composite d1 fs bs = visit_composite d2 fs bs.
  Proof.
    intros H fs bs. unfold visit_composite. destruct (_ && _).
    - destruct (decode_named_mono d1 d2 H fs bs) as [E|E]; rewrite E; [left|right]; reflexivity.
    - destruct (decode_items_mono d1 d2 H (map snd fs) bs) as [E|E]; rewrite E; [left|right]; reflexivity.
  Qed.
  Lemma to_unnamed_mono (d1 d2 : TId -> bytes -> dres (value C)) :
    (forall t bs, d1 t bs = Err EHang \/ d1 t bs = d2 t bs) ->
    forall t ts bs, to_unnamed ctxf d1 t ts bs = Err EHang \/ to_unnamed ctxf d1 t ts bs = to_unnamed ctxf d2 t ts bs.
  Proof.
    intros H t ts bs. unfold to_unnamed. destruct (decode_items_mono d1 d2 H ts bs) as [E|E]; rewrite E; [left|right]; reflexivity.
  Qed.

  Lemma decode_mono : forall f1 f2, (f1 <= f2)%nat -> forall c t bs, dec f1 c t bs = Err EHang \/ dec f1 c t bs = dec f2 c t bs.
  Proof.
    induction f1 as [|f1 IH]; intros f2 Hf c t bs; [left; reflexivity|]. destruct f2 as [|f2]; [lia|].
    assert (IH' : forall c t bs, dec f1 c t bs = Err EHang \/ dec f1 c t bs = dec f2 c t bs) by (apply IH; lia).
    cbn [decode]. destruct (reg t) as [| |[fs|vs|t'|t' n|ts|p|t'|st o]] eqn:R; try (right; reflexivity).
    - destruct (c && negb (length fs =? 1)%nat); [right; reflexivity|].
      destruct (visit_composite_mono (dec f1 c) (dec f2 c) (IH' c) fs bs) as [E|E]; rewrite E; [left|right]; reflexivity.
    - destruct c; [right; reflexivity|]. destruct bs as [|i bs]; [right; reflexivity|].
      destruct (find _ vs) as [v|]; [|right; reflexivity].
      destruct (visit_composite_mono (dec f1 false) (dec f2 false) (IH' false) (vi_fields v) bs) as [E|E]; rewrite E; [left|right]; reflexivity.
    - destruct c; [right; reflexivity|]. destruct (compact_decode (x_len X) bs) as [[n b]|e]; [|right; reflexivity]. cbn [bind fst snd].
      apply to_unnamed_mono. apply IH'.
    - destruct c; [right; reflexivity|]. apply to_unnamed_mono. apply IH'.
    - destruct (c && negb (length ts =? 1)%nat); [right; reflexivity|]. apply to_unnamed_mono. apply IH'.
    - apply IH'.
  Qed.

  Lemma decode_mono_ok f1 f2 c t bs x : (f1 <= f2)%nat -> dec f1 c t bs = Ok x -> dec f2 c t bs = Ok x.
  Proof. intros Hf H. destruct (decode_mono f1 f2 Hf c t bs) as [E|E]; congruence. Qed.
End Facts.
