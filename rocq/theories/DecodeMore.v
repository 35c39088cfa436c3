(** * DecodeMore: contexts, termination and uniqueness for the decoder. *)
From Verif Require Import Base Value ValueFacts Registry Spec_Scale Spec_Decode Scale ScaleFacts BitsFacts Decode DecodeFacts.
Open Scope N_scope.

(** Apply a function to the decoded value. *)
Definition dmap {A B} (g : A -> B) (r : dres A) : dres B := rmap (fun x => (g (fst x), snd x)) r.

Section Ctx.
  Context {TId C D : Type} (reg : TId -> resolution TId) (X : ext) (f : TId -> C) (g : C -> D).
  Local Notation h := (fun t => g (f t)).
  Local Notation mc := (map_ctx g).

  Lemma decode_items_map (d1 : TId -> bytes -> dres (value C)) (d2 : TId -> bytes -> dres (value D)) :
    (forall t bs, d2 t bs = dmap mc (d1 t bs)) -> forall ts bs, decode_items d2 ts bs = dmap (map mc) (decode_items d1 ts bs).
  Proof.
    intro H. induction ts as [|t ts IH]; intro bs; [reflexivity|]. cbn [decode_items]. rewrite H.
    destruct (d1 t bs) as [[v b]|e]; [|reflexivity]. cbn [dmap rmap bind fst snd]. rewrite IH.
    destruct (decode_items d1 ts b) as [[vs b']|e]; reflexivity.
  Qed.
  Lemma decode_named_map (d1 : TId -> bytes -> dres (value C)) (d2 : TId -> bytes -> dres (value D)) :
    (forall t bs, d2 t bs = dmap mc (d1 t bs)) -> forall fs bs,
      decode_named d2 fs bs = dmap (map (fun kv => (fst kv, mc (snd kv)))) (decode_named d1 fs bs).
  Proof.
    intro H. induction fs as [|[n t] ts IH]; intro bs; [reflexivity|]. cbn [decode_named]. rewrite H.
    destruct (d1 t bs) as [[v b]|e]; [|reflexivity]. cbn [dmap rmap bind fst snd]. rewrite IH.
    destruct (decode_named d1 ts b) as [[vs b']|e]; reflexivity.
  Qed.
  Lemma visit_composite_map (d1 : TId -> bytes -> dres (value C)) (d2 : TId -> bytes -> dres (value D)) :
    (forall t bs, d2 t bs = dmap mc (d1 t bs)) -> forall fs bs,
      visit_composite d2 fs bs = dmap (composite_map mc) (visit_composite d1 fs bs).
  Proof.
    intros H fs bs. unfold visit_composite. destruct (_ && _).
    - rewrite (decode_named_map d1 d2 H). destruct (decode_named d1 fs bs) as [[v b]|e]; reflexivity.
    - rewrite (decode_items_map d1 d2 H). destruct (decode_items d1 (map snd fs) bs) as [[v b]|e]; reflexivity.
  Qed.
  Lemma to_unnamed_map (d1 : TId -> bytes -> dres (value C)) (d2 : TId -> bytes -> dres (value D)) :
    (forall t bs, d2 t bs = dmap mc (d1 t bs)) -> forall t ts bs,
      to_unnamed h d2 t ts bs = dmap mc (to_unnamed f d1 t ts bs).
  Proof.
    intros H t ts bs. unfold to_unnamed. rewrite (decode_items_map d1 d2 H). destruct (decode_items d1 ts bs) as [[v b]|e]; reflexivity.
  Qed.

  Lemma decode_map_ctx : forall fuel c t bs, decode reg X h fuel c t bs = dmap mc (decode reg X f fuel c t bs).
  Proof.
    induction fuel as [|fuel IH]; intros c t bs; [reflexivity|]. cbn [decode].
    destruct (reg t) as [| |[fs|vs|t'|t' n|ts|p|t'|st o]]; try reflexivity.
    - destruct (c && _); [reflexivity|]. rewrite (visit_composite_map _ _ (IH c)).
      destruct (visit_composite (decode reg X f fuel c) fs bs) as [[v b]|e]; reflexivity.
    - destruct c; [reflexivity|]. destruct bs as [|i bs]; [reflexivity|]. destruct (find _ vs) as [v|]; [|reflexivity].
      rewrite (visit_composite_map _ _ (IH false)). destruct (visit_composite (decode reg X f fuel false) _ bs) as [[v' b]|e]; reflexivity.
    - destruct c; [reflexivity|]. destruct (compact_decode (x_len X) bs) as [[n b]|e]; [|reflexivity]. cbn [bind fst snd].
      apply to_unnamed_map, IH.
    - destruct c; [reflexivity|]. apply to_unnamed_map, IH.
    - destruct (c && _); [reflexivity|]. apply to_unnamed_map, IH.
    - destruct (read_prim (x_len X) PU256 c p bs) as [[v b]|e]; reflexivity.
    - apply IH.
    - destruct c; [reflexivity|]. destruct (decode_bits _ st o bs) as [[v b]|e]; reflexivity.
  Qed.
End Ctx.

Section Labels.
  Context {TId : Type} (reg : TId -> resolution TId) (mb lb : N) (tag : bytes -> prim) (strict : bool).

  Lemma labelled_compact t t' v : reg t = ResTy (TCompact t') -> labelled reg t' v -> labelled reg t v.
  Proof. intros R H. inversion H; subst. econstructor; [eapply BC_step; eassumption|eassumption]. Qed.

  Lemma enc_labelled_mut :
    (forall c t v bs, enc reg mb lb (fun t => t) tag strict c t v bs -> labelled reg t v) /\
    (forall c ts vs bs, encs reg mb lb (fun t => t) tag strict c ts vs bs -> labelled_all reg ts vs).
  Proof.
    apply enc_encs_ind.
    - intros. apply L_node; [constructor|]. eapply L_prim; eassumption.
    - intros. apply L_node; [constructor|]. eapply L_prim; eassumption.
    - intros. eapply labelled_compact; eassumption.
    - intros c t fs vs cmp bs R _ _ IH Sh. apply L_node; [constructor|]. eapply L_composite; [exact R|].
      inversion Sh; subst; exact IH.
    - intros c t ts vs bs R _ _ IH. apply L_node; [constructor|]. eapply L_tuple; [exact R|exact IH].
    - intros t l1 name idx fs l2 vs cmp bs R _ _ _ IH Sh. apply L_node; [constructor|].
      apply (L_variant reg t _ (VInfo name idx fs) cmp R); [apply in_or_app; right; left; reflexivity|].
      cbn [vi_fields]. inversion Sh; subst; exact IH.
    - intros t t' vs pre bs R _ _ _ IH. apply L_node; [constructor|]. eapply L_sequence; [exact R|exact IH].
    - intros t t' n vs bs R L _ IH. apply L_node; [constructor|]. eapply L_array; [exact R|]. subst n. rewrite Nat2N.id. exact IH.
    - intros. apply L_node; [constructor|]. eapply L_bits; eassumption.
    - constructor.
    - intros. constructor; assumption.
  Qed.
End Labels.

Lemma take_nohang k bs : take k bs <> Err EHang.
Proof. unfold take. destruct (_ <? _)%nat; discriminate. Qed.
Lemma compact_decode_nohang w bs : compact_decode w bs <> Err EHang.
Proof.
  unfold compact_decode. destruct bs as [|p r]; [discriminate|]. cbv zeta. unfold take.
  repeat (match goal with |- context[if ?b then _ else _] => destruct b end; cbn [bind]; try discriminate).
Qed.
Lemma bind_nohang {A B} (r : dres A) (k : A * bytes -> dres B) : r <> Err EHang -> (forall x, k x <> Err EHang) -> bind r k <> Err EHang.
Proof. intros Hr Hk. destruct r as [x|e]; cbn [bind]; [apply Hk|congruence]. Qed.
Lemma read_prim_nohang lb tag c p bs : read_prim lb tag c p bs <> Err EHang.
Proof.
  unfold read_prim. destruct p; destruct c; try discriminate.
  1: { destruct bs as [|b r]; [discriminate|]. destruct (b =? 0), (b =? 1); discriminate. }
  all: try (apply bind_nohang; [apply take_nohang || apply compact_decode_nohang|intro x; cbv zeta; try (destruct (is_scalar _)); discriminate]).
  apply bind_nohang; [apply compact_decode_nohang|]. intro x. apply bind_nohang; [apply take_nohang|]. intro y. destruct (utf8_decode _); discriminate.
Qed.
Lemma decode_bits_nohang mb st o bs : decode_bits mb st o bs <> Err EHang.
Proof.
  unfold decode_bits. apply bind_nohang; [apply compact_decode_nohang|]. intro x. cbv zeta. destruct (_ <? _); [discriminate|].
  apply bind_nohang; [apply take_nohang|discriminate].
Qed.

Section Term.
  Context {TId C : Type} (reg : TId -> resolution TId) (X : ext) (ctxf : TId -> C).
  Local Notation dec := (decode reg X ctxf).

  Lemma hang_le f1 f2 c t bs : (f1 <= f2)%nat -> dec f1 c t bs <> Err EHang -> dec f2 c t bs <> Err EHang.
  Proof. intros L H. destruct (decode_mono reg X ctxf f1 f2 L c t bs) as [E|E]; congruence. Qed.

  Lemma is_bytes_app_r a b : is_bytes (a ++ b) -> is_bytes b.
  Proof. intro H. apply Forall_app in H. apply H. Qed.

  Lemma items_nohang c ts n : (forall t, In t ts -> forall bs, is_bytes bs -> (length bs <= n)%nat -> exists fuel, dec fuel c t bs <> Err EHang) ->
    forall bs, is_bytes bs -> (length bs <= n)%nat -> exists fuel, decode_items (dec fuel c) ts bs <> Err EHang.
  Proof.
    induction ts as [|t ts IH]; intros H bs HB HL; [exists 0%nat; discriminate|].
    destruct (H t (or_introl eq_refl) bs HB HL) as [f1 H1].
    destruct (dec f1 c t bs) as [[v b]|e] eqn:E.
    - destruct (decode_sound reg X ctxf f1 c t bs v b HB E) as (pre & -> & _). apply is_bytes_app_r in HB. rewrite app_length in HL.
      destruct (IH (fun t Ht => H t (or_intror Ht)) b HB ltac:(lia)) as [f2 H2].
      exists (Nat.max f1 f2). cbn [decode_items]. rewrite (decode_mono_ok reg X ctxf f1 (Nat.max f1 f2) c t _ _ ltac:(lia) E).
      cbn [bind snd]. destruct (decode_items_mono (dec f2 c) (dec (Nat.max f1 f2) c) (fun t bs => decode_mono reg X ctxf f2 (Nat.max f1 f2) (Nat.le_max_r f1 f2) c t bs) ts b) as [E'|E'].
      + contradiction.
      + rewrite <- E'. destruct (decode_items (dec f2 c) ts b) as [[vs b']|e]; cbn [bind] in *; congruence.
    - exists f1. cbn [decode_items]. rewrite E. cbn [bind]. congruence.
  Qed.

  Lemma named_items_hang d (fs : list (field TId)) : forall bs, decode_named (C:=C) d fs bs = Err EHang -> decode_items d (map snd fs) bs = Err EHang.
  Proof.
    induction fs as [|[n t] fs IH]; intro bs; cbn [decode_named decode_items map snd]; [discriminate|].
    destruct (d t bs) as [[v b]|e]; cbn [bind snd]; [|congruence]. specialize (IH b).
    destruct (decode_named d fs b) as [[kv b']|e]; cbn [bind]; [discriminate|]. intros [= ->]. rewrite IH by reflexivity. reflexivity.
  Qed.
  Lemma composite_items_hang d (fs : list (field TId)) bs : visit_composite (C:=C) d fs bs = Err EHang -> decode_items d (map snd fs) bs = Err EHang.
  Proof.
    unfold visit_composite. destruct (_ && _).
    - intro H. apply named_items_hang. destruct (decode_named d fs bs) as [[v b]|e]; cbn [bind] in H; congruence.
    - destruct (decode_items d (map snd fs) bs) as [[v b]|e]; cbn [bind]; congruence.
  Qed.
  Lemma bind_hang {A B} (r : dres A) (k : A * bytes -> dres B) : (forall x, k x <> Err EHang) -> bind r k = Err EHang -> r = Err EHang.
  Proof. intros Hk. destruct r as [x|e]; cbn [bind]; [intro H; destruct (Hk x H)|congruence]. Qed.

  Lemma items_of_In {t : TId} {n} {u} : In u (repeat t n) -> u = t /\ n <> 0%nat.
  Proof. intro H. destruct n; [destruct H|]. apply repeat_spec in H. split; [exact H|discriminate]. Qed.

  Lemma compact_decode_shorter w bs n r : is_bytes bs -> compact_decode w bs = Ok (n, r) -> is_bytes r /\ (length r < length bs)%nat.
  Proof.
    intros HB H. apply compact_decode_sound in H as (pre & -> & E & _); [|exact HB]. split; [eapply is_bytes_app_r, HB|].
    rewrite app_length. enough (pre <> []) by (destruct pre; [contradiction|cbn; lia]).
    intros ->. inversion E as [|? ? ? (_ & L & _)|? ? ? (_ & L & _)|]; subst; discriminate.
  Qed.

  Context (WF : forall t, Acc (inside reg) t).

  Theorem decode_terminates : forall bs, is_bytes bs -> forall c t, exists fuel, dec fuel c t bs <> Err EHang.
  Proof.
    enough (G : forall n bs, (length bs <= n)%nat -> is_bytes bs -> forall c t, exists fuel, dec fuel c t bs <> Err EHang).
    { intros bs HB. apply (G (length bs)); [lia|exact HB]. }
    induction n as [n IHn] using lt_wf_ind. intros bs HL HB c t. revert bs HL HB c.
    induction (WF t) as [t _ IHt]. intros bs HL HB c.
    assert (Short : forall ts m c', (m < n)%nat -> forall bs', is_bytes bs' -> (length bs' <= m)%nat -> exists fuel, decode_items (dec fuel c') ts bs' <> Err EHang).
    { intros ts m c' Hm. apply items_nohang. intros u _ bs' HB' HL'. apply (IHn m Hm bs' HL' HB'). }
    assert (Ins : forall ts c', (forall u, In u ts -> inside reg u t) -> exists fuel, decode_items (dec fuel c') ts bs <> Err EHang).
    { intros ts c' Hts. apply (items_nohang c' ts n); [|exact HB|exact HL]. intros u Hu bs' HB' HL'. apply (IHt u (Hts u Hu) bs' HL' HB'). }
    destruct (reg t) as [| |[fs|vs|t'|t' m|ts|p|t'|st o]] eqn:R.
    - exists 1%nat. cbn [decode]. rewrite R. discriminate.
    - exists 1%nat. cbn [decode]. rewrite R. discriminate.
    - destruct (Ins (map snd fs) c) as [f Hf].
      { intros u Hu. apply in_map_iff in Hu as ([nm u'] & <- & Hin). eapply In_field; [exact R|exact Hin]. }
      exists (S f). cbn [decode]. rewrite R. destruct (c && _); [discriminate|]. intro H. apply Hf, composite_items_hang.
      eapply bind_hang; [|exact H]. discriminate.
    - destruct c; [exists 1%nat; cbn [decode]; rewrite R; discriminate|].
      destruct bs as [|i bs]; [exists 1%nat; cbn [decode]; rewrite R; discriminate|].
      destruct (find (fun v => vi_index v =? i) vs) as [v|] eqn:FD; [|exists 1%nat; cbn [decode]; rewrite R, FD; discriminate].
      cbn [length] in HL. destruct (Short (map snd (vi_fields v)) (length bs) false ltac:(lia) bs (Forall_inv_tail HB) (le_n _)) as [f Hf].
      exists (S f). cbn [decode]. rewrite R, FD. intro H. apply Hf, composite_items_hang. eapply bind_hang; [|exact H]. discriminate.
    - destruct c; [exists 1%nat; cbn [decode]; rewrite R; discriminate|].
      destruct (compact_decode (x_len X) bs) as [[m b]|e] eqn:CD.
      2:{ exists 1%nat; cbn [decode]; rewrite R, CD. cbn [bind]. intros [= ->]. exact (compact_decode_nohang _ _ CD). }
      destruct (compact_decode_shorter _ _ _ _ HB CD) as [HB' SH].
      destruct (Short (repeat t' (N.to_nat m)) (length b) false ltac:(lia) b HB' (le_n _)) as [f Hf].
      exists (S f). cbn [decode]. rewrite R, CD. cbn [bind fst snd]. unfold to_unnamed. intro H. apply Hf. eapply bind_hang; [|exact H]. discriminate.
    - destruct c; [exists 1%nat; cbn [decode]; rewrite R; discriminate|].
      destruct (Ins (repeat t' (N.to_nat m)) false) as [f Hf].
      { intros u Hu. apply items_of_In in Hu as [-> Hm]. eapply In_array; [exact R|]. lia. }
      exists (S f). cbn [decode]. rewrite R. unfold to_unnamed. intro H. apply Hf. eapply bind_hang; [|exact H]. discriminate.
    - destruct (Ins ts c) as [f Hf].
      { intros u Hu. eapply In_tuple; [exact R|exact Hu]. }
      exists (S f). cbn [decode]. rewrite R. destruct (c && _); [discriminate|]. unfold to_unnamed. intro H. apply Hf. eapply bind_hang; [|exact H]. discriminate.
    - exists 1%nat. cbn [decode]. rewrite R. intro H. apply bind_hang in H; [|discriminate]. revert H. apply read_prim_nohang.
    - destruct (IHt t' (In_compact reg t t' R) bs HL HB true) as [f Hf]. exists (S f). cbn [decode]. rewrite R. exact Hf.
    - exists 1%nat. cbn [decode]. rewrite R. destruct c; [discriminate|]. intro H. apply bind_hang in H; [|discriminate]. revert H. apply decode_bits_nohang.
  Qed.
End Term.

(** A type whose first item leads back to itself. *)
Lemma decode_hangs {TId C} reg X (ctxf : TId -> C) (S : TId -> Prop) :
  (forall t, S t -> exists t', first_in reg t' t /\ S t') -> forall fuel t bs, S t -> decode reg X ctxf fuel false t bs = Err EHang.
Proof.
  intro H. induction fuel as [|fuel IH]; intros t bs Ht; [reflexivity|]. destruct (H t Ht) as (t' & F & Ht'). cbn [decode].
  assert (IT : forall ts, decode_items (decode reg X ctxf fuel false) (t' :: ts) bs = Err EHang).
  { intro ts. cbn [decode_items]. rewrite IH by exact Ht'. reflexivity. }
  assert (NM : forall nm fs, decode_named (decode reg X ctxf fuel false) ((nm, t') :: fs) bs = Err EHang).
  { intros nm fs. cbn [decode_named]. rewrite IH by exact Ht'. reflexivity. }
  inversion F as [? nm ? fs R|? ? ts R|? n ? R Hn]; subst; rewrite R; cbn [andb].
  - unfold visit_composite. cbn [map snd]. rewrite IT, NM. destruct (_ && _); reflexivity.
  - unfold to_unnamed. rewrite IT. reflexivity.
  - unfold to_unnamed. destruct (N.to_nat n) as [|m] eqn:E; [lia|]. cbn [repeat]. rewrite IT. reflexivity.
Qed.

(** A value has one encoding (with zero padding) at a type. *)
Section Unique.
  Context {TId C : Type} (reg : TId -> resolution TId) (mb lb : N) (ctxf : TId -> C).
  Context (ND : variant_names_differ reg).
  Local Notation ENC := (enc reg mb lb ctxf PU256 true).
  Local Notation ENCS := (encs reg mb lb ctxf PU256 true).

  Lemma prim_enc_fun p x b1 b2 : prim_enc lb PU256 p x b1 -> prim_enc lb PU256 p x b2 -> b1 = b2.
  Proof.
    intros H1 H2. inversion H1; subst; inversion H2; subst; try reflexivity.
    - rewrite le_enc_iff in *. intuition congruence.
    - f_equal. match goal with A : compact_enc _ pre, B : compact_enc _ pre0 |- _ => rewrite (compact_enc_fun _ _ A), (compact_enc_fun _ _ B) end. reflexivity.
    - rewrite le_enc_iff in *. intuition congruence.
    - rewrite le_enc_iff in *. intuition congruence.
  Qed.

  Lemma shape_values names (vs1 vs2 : list (value C)) cmp : fields_shape names vs1 cmp -> fields_shape names vs2 cmp -> vs1 = vs2.
  Proof. intros H1 H2. inversion H1; subst; inversion H2; subst; reflexivity. Qed.

  Lemma enc_unique_mut :
    (forall c t v bs, ENC c t v bs -> forall bs', ENC c t v bs' -> bs' = bs) /\
    (forall c ts vs bs, ENCS c ts vs bs -> forall bs', ENCS c ts vs bs' -> bs' = bs).
  Proof.
    apply enc_encs_ind.
    - intros t p x bs R HP bs' H. inversion H; subst; try congruence. assert (p0 = p) by congruence. subst. eapply prim_enc_fun; eassumption.
    - intros t w n bs R Hn HC bs' H. inversion H; subst; try congruence. rewrite (compact_enc_fun _ _ HC). apply compact_enc_fun. assumption.
    - intros c t t' v bs R _ IH bs' H. inversion H; subst; try congruence. assert (t'0 = t') by congruence. subst. apply IH. assumption.
    - intros c t fs vs cmp bs R HC _ IH Sh bs' H. inversion H; subst; try congruence. assert (fs0 = fs) by congruence. subst.
      match goal with H' : fields_shape _ vs0 _ |- _ => pose proof (shape_values _ _ _ _ H' Sh); subst end. apply IH. assumption.
    - intros c t ts vs bs R HC _ IH bs' H. inversion H; subst; try congruence. assert (ts0 = ts) by congruence. subst. apply IH. assumption.
    - intros t l1 name idx fs l2 vs cmp bs R Hn Hi _ IH Sh bs' H. inversion H; subst; try congruence.
      match goal with H' : reg t = ResTy (TVariant _) |- _ => rename H' into R' end.
      assert (E : VInfo name idx0 fs0 = VInfo name idx fs).
      { pose proof (ND t _ R) as N1. rewrite R in R'. injection R' as E.
        assert (I0 : In (VInfo name idx0 fs0) (l1 ++ VInfo name idx fs :: l2)) by (rewrite E; apply in_or_app; right; left; reflexivity).
        assert (I1 : In (VInfo name idx fs) (l1 ++ VInfo name idx fs :: l2)) by (apply in_or_app; right; left; reflexivity).
        revert I0 I1 N1. generalize (l1 ++ VInfo name idx fs :: l2) as l. clear. induction l as [|v l IH]; [intros []|].
        cbn [map]. intros I0 I1 N1. inversion N1 as [|? ? Hni N2]; subst. destruct I0 as [->|I0], I1 as [I1|I1]; auto.
        - exfalso. apply Hni. apply (in_map vi_name) in I1. exact I1.
        - exfalso. apply Hni. subst v. apply (in_map vi_name) in I0. exact I0. }
      injection E as -> ->.
      match goal with H' : fields_shape _ vs0 _ |- _ => pose proof (shape_values _ _ _ _ H' Sh); subst end. f_equal. apply IH. assumption.
    - intros t t' vs pre bs R HL HC _ IH bs' H. inversion H; subst; try congruence. assert (t'0 = t') by congruence. subst. f_equal.
      + rewrite (compact_enc_fun _ _ HC). apply compact_enc_fun. assumption.
      + apply IH. assumption.
    - intros t t' n vs bs R HL _ IH bs' H. inversion H; subst; try congruence. assert (t'0 = t') by congruence. subst. apply IH. assumption.
    - intros t st o b pre bs R Hl Hm HC HP bs' H. inversion H; subst; try congruence. assert (E : st0 = st /\ o0 = o) by (split; congruence). destruct E as [-> ->].
      f_equal.
      + rewrite (compact_enc_fun _ _ HC). apply compact_enc_fun. assumption.
      + rewrite (payload_strict_fun _ _ _ _ HP). apply payload_strict_fun. assumption.
    - intros c bs' H. inversion H. reflexivity.
    - intros c t ts v vs b bs _ H1 _ H2 bs' H. inversion H; subst. f_equal; auto.
  Qed.
End Unique.
