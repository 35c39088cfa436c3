(** * MigrateFacts: values of one type fit another one (C103). *)
From Verif Require Import Base Value ValueFacts Registry Spec_Scale Scale ScaleFacts Spec_Encode Encode EncodeSound Spec_Same Spec_Writes WritesFacts EditFacts Spec_Migrate.
Open Scope N_scope.

Section Migrate.
  Context {TId TId' C : Type} (reg : TId -> resolution TId) (reg' : TId' -> resolution TId') (X' : ext) (R : TId -> TId' -> Prop).
  Context (mb lb : N) (ctxf : TId -> C) (strict : bool).
  Local Notation ENC := (enc reg mb lb ctxf PU256 strict).
  Local Notation ENCS := (encs reg mb lb ctxf PU256 strict).
  Local Notation fits := (fits (T := C) reg' X').
  Local Notation FW := (fun v t (_ : bytes) => fits v t).
  Local Notation OKv := (fun t v => forall t', R t t' -> fits v t').

  (** ** Integers *)
  Lemma bits_size w : 2 ^ int_bits w = 256 ^ N.of_nat (int_size w).
  Proof. destruct w; reflexivity. Qed.
  Lemma zbits w n : n < 2 ^ int_bits w <-> (Z.of_N n < 2 ^ Z.of_N (int_bits w))%Z.
  Proof. change 2%Z with (Z.of_N 2). rewrite <- (N2Z.inj_pow 2 (int_bits w)). lia. Qed.
  Lemma number_ex z t u p : chain (wraps reg') t u -> reg' u = ResTy (TPrim p) -> is_int p -> holds p z -> exists b, number reg' z t b.
  Proof.
    intros Ch Ru (w & [-> | ->]) H; cbn [holds] in H.
    - exists (le_bytes (int_size w) (Z.to_N z)). eapply N_uint; [exact Ch|exact Ru|exact H|]. apply le_enc_bytes. rewrite <- bits_size. apply zbits. rewrite Z2N.id by lia. lia.
    - exists (le_bytes (int_size w) (Z.to_N (z mod 2 ^ Z.of_N (int_bits w)))). eapply N_int; [exact Ch|exact Ru|exact H|]. apply le_enc_bytes. rewrite <- bits_size. apply zbits.
      assert (P : (0 < 2 ^ Z.of_N (int_bits w))%Z) by (apply Z.pow_pos_nonneg; lia).
      pose proof (Z.mod_pos_bound z _ P). rewrite Z2N.id by lia. lia.
  Qed.
  Lemma number_compact_ex z t u k u' w : chain (wraps reg') t u -> reg' u = ResTy (TCompact k) -> chain (wraps reg') k u' -> reg' u' = ResTy (TPrim (PtU w)) ->
    holds (PtU w) z -> exists b, number reg' z t b.
  Proof.
    intros Ch Ru Ck Rk H. cbn [holds] in H. exists (compact_encode (Z.to_N z)). eapply N_compact; [exact Ch|exact Ru|exact Ck|exact Rk|exact H|].
    apply compact_small. assert (Z.to_N z < 2 ^ int_bits w) by (apply zbits; rewrite Z2N.id by lia; lia).
    eapply N.lt_le_trans; [eassumption|]. apply N.pow_le_mono_r; [lia|]. destruct w; vm_compute; discriminate.
  Qed.
  Lemma prefix_ex n : exists b, prefix n b.
  Proof. eexists. apply prefix_iff. reflexivity. Qed.

  (** ** Lists *)
  Lemma in_turn_of (vs : list (value C)) ts : Forall2 fits vs ts -> in_turn FW vs ts [].
  Proof. induction 1; [constructor|]. apply (I_cons FW x l y l' [] []); assumption. Qed.
  Lemma in_turn_ok (vs : list (value C)) ts ts' : Forall2 OKv ts vs -> Forall2 R ts ts' -> in_turn FW vs ts' [].
  Proof.
    intros H1 H2. apply in_turn_of. revert vs H1. induction H2 as [|t t' ts ts' r H2 IH]; intros vs H1; inversion H1; subst; constructor; [|apply IH; assumption].
    match goal with H : forall t0, R t t0 -> _ |- _ => apply H, r end.
  Qed.
  Lemma ok_repeat e (vs : list (value C)) e' : Forall2 OKv (repeat e (length vs)) vs -> R e e' -> in_turn FW vs (repeat e' (length vs)) [].
  Proof. intros H r. eapply in_turn_ok; [exact H|]. clear H. induction (length vs); cbn [repeat]; constructor; assumption. Qed.
  Lemma f2_map_l {A B D} (f : A -> B) (P : B -> D -> Prop) l l' : Forall2 (fun a => P (f a)) l l' -> Forall2 P (map f l) l'.
  Proof. induction 1; cbn; constructor; assumption. Qed.
  Lemma f2_map_r {A B D} (f : A -> B) (P : D -> B -> Prop) l l' : Forall2 (fun d a => P d (f a)) l l' -> Forall2 P l (map f l').
  Proof. induction 1; cbn; constructor; assumption. Qed.
  Lemma f2_same_len {A B} (P : A -> B -> Prop) l l' : Forall2 P l l' -> length l = length l'.
  Proof. induction 1; cbn; auto. Qed.

  (** ** Fields *)
  Lemma shape_named (fs : list (field TId)) (vs : list (value C)) c : fields_shape (map fst fs) vs c -> fs <> [] -> ~ In None (map fst fs) ->
    exists kvs, c = Named kvs /\ vs = map snd kvs /\ map fst fs = map (fun kv => Some (fst kv)) kvs /\ kvs <> [].
  Proof.
    intros H NE NN. inversion H as [kvs NK E1 E2 E3|names vs' L D E1 E2 E3]; subst.
    - exists kvs. auto.
    - destruct D as [D|D]; [|contradiction]. destruct fs; [contradiction|discriminate].
  Qed.
  Lemma fields_name fs fs' vs c : by_name R fs fs' -> Forall2 OKv (map snd fs) vs -> fields_shape (map fst fs) vs c -> fields FW c fs' [].
  Proof.
    intros (NE & NN & NE' & NN' & HF) OV SH. apply shape_named in SH as (kvs & -> & -> & EN & NK); [|exact NE|exact NN].
    assert (K : forall f', In f' fs' -> exists v, last_entry kvs (name_of f') v /\ fits v (snd f')).
    { intros f' Hf. rewrite Forall_forall in HF. destruct (HF f' Hf) as (l1 & t & l2 & -> & NI & r).
      destruct f' as [[n|] t']; cbn [fst snd name_of] in *; [|exfalso; apply NN', (in_map fst fs' (None, t')), Hf].
      clear - OV EN NI r. revert kvs OV EN. induction l1 as [|f l1 IH]; intros kvs OV EN; (destruct kvs as [|[k v] kvs]; [discriminate|]); cbn [app map fst snd] in *; inversion OV; subst; injection EN as E1 E2.
      - subst k. exists v. split; [|match goal with H : forall t0, R t t0 -> _ |- _ => apply H, r end]. exists [], kvs. split; [reflexivity|].
        intro HI. apply NI. rewrite E2. apply in_map_iff in HI as (kv & <- & HI). apply in_map_iff. exists kv. auto.
      - destruct (IH kvs ltac:(assumption) E2) as (v0 & (a & b & -> & NB) & HF). exists v0. split; [|exact HF]. exists ((k, v) :: a), b. split; [reflexivity|exact NB]. }
    assert (KV : exists ws, Forall2 (fun f v => last_entry kvs (name_of f) v) fs' ws /\ Forall2 fits ws (map snd fs')).
    { clear - K. induction fs' as [|f fs' IH]; [exists []; split; constructor|]. destruct (K f (or_introl eq_refl)) as (v & H1 & H2). destruct IH as (ws & W1 & W2); [intros; apply K; right; assumption|].
      exists (v :: ws). split; constructor; assumption. }
    destruct KV as (ws & W1 & W2). eapply F_by_name; [exact NK| |exact W1|apply in_turn_of, W2].
    destruct fs' as [|f fs']; [contradiction|]. exists f. split; [left; reflexivity|]. intro E. apply NN'. left. exact E.
  Qed.
  Lemma fields_position fs fs' vs c : by_position R fs fs' -> Forall2 OKv (map snd fs) vs -> fields_shape (map fst fs) vs c -> fields FW c fs' [].
  Proof.
    intros (HF & D) OV SH. pose proof (shape_vals _ _ _ SH) as SV. apply F_by_position.
    - intros l ->. cbn [values] in SV. destruct D as [-> |[D|D]]; [| |right; exact D].
      + left. cbn [map] in OV. inversion OV; subst. destruct l; [reflexivity|discriminate].
      + exfalso. inversion SH as [kvs NK E1 E2 E3|]; subst. rewrite <- E1 in D. apply in_map_iff in D as (? & D & _). discriminate.
    - rewrite SV. eapply in_turn_ok; [exact OV|]. apply f2_map_l, f2_map_r. exact HF.
  Qed.

  (** ** All together *)
  Lemma not_transparent fs t : reg' t = ResTy (TComposite fs) -> length fs <> 1%nat \/ ~ In None (map fst fs) -> forall w, ~ transparent reg' t w.
  Proof. intros Ht D w W. inversion W as [? ? E|? ? E]; subst; rewrite Ht in E; [|discriminate]. injection E as ->. destruct D as [D|D]; [apply D; reflexivity|apply D; left; reflexivity]. Qed.
  Lemma not_transparent_tuple ts t : reg' t = ResTy (TTuple ts) -> length ts <> 1%nat -> forall w, ~ transparent reg' t w.
  Proof. intros Ht D w W. inversion W as [? ? E|? ? E]; subst; rewrite Ht in E; [discriminate|]. injection E as ->. apply D; reflexivity. Qed.

  Lemma struct_fits c x t fs vs : reg' t = ResTy (TComposite fs) -> length fs <> 1%nat \/ ~ In None (map fst fs) -> (forall v, c <> Unnamed [v]) -> values c = vs -> fields FW c fs [] ->
    fits (Val (DComposite c) x) t.
  Proof.
    intros Ht D NU _ HF. apply (Fits_directly _ _ c x t []). eapply D_struct; [left; eauto|split; [apply Ch_refl|eapply not_transparent; eassumption]|].
    eapply S_struct; eassumption.
  Qed.
  Lemma tuple_fits c x t ts : reg' t = ResTy (TTuple ts) -> length ts <> 1%nat -> in_turn FW (values c) ts [] -> length (values c) = length ts -> fits (Val (DComposite c) x) t.
  Proof.
    intros Ht D IT L. apply (Fits_directly _ _ c x t []). eapply D_struct; [right; eauto|split; [apply Ch_refl|eapply not_transparent_tuple; eassumption]|].
    eapply S_tuple; [exact Ht|congruence|]. apply F_by_position.
    - intros l _. right. intros f Hf. apply in_map_iff in Hf as (? & <- & _). reflexivity.
    - rewrite map_map, map_id. exact IT.
  Qed.

  Lemma inside_fits c x t' u v : inside reg' t' u -> values c = [v] -> c = Unnamed [v] \/ (forall fs, reg' u <> ResTy (TComposite fs)) -> fits v u -> fits (Val (DComposite c) x) t'.
  Proof.
    intros (HT & Ch & ST & NE) EV EC HV. apply (Fits_directly _ _ c x t' []). eapply D_struct with (u := u); [exact HT|split; assumption|].
    destruct EC as [EC|NC]; [|eapply S_other_one; eassumption].
    destruct (reg' u) as [| |ty] eqn:Ea; [congruence|eapply S_other_one; [rewrite Ea; discriminate|rewrite Ea; discriminate|exact EV|exact HV]|].
    destruct ty; try (eapply S_other_one; [rewrite Ea; discriminate|rewrite Ea; discriminate|exact EV|exact HV]).
    eapply S_struct_one; [exact Ea|exact EC|exact HV].
  Qed.
  Lemma composite_fits d (c : composite (value C)) x t' : goes reg' X' R d t' ->
    forall ts, Forall2 OKv ts (values c) ->
    (exists fs, d = TComposite fs /\ map snd fs = ts /\ fields_shape (map fst fs) (values c) c) \/ (d = TTuple ts /\ c = Unnamed (values c)) -> fits (Val (DComposite c) x) t'.
  Proof.
    intros G ts OV D.
    assert (ONE : forall a, ts = [a] -> exists v, values c = [v] /\ OKv a v).
    { intros a ->. inversion OV as [|? v ? l H1 H2]; subst. inversion H2; subst. eauto. }
    inversion G; subst; destruct D as [(fs0 & ED & ET & SH)|(ED & EC)]; try discriminate; try (injection ED as ED); subst.
    - match goal with H : _ \/ _ |- _ => destruct H as [B|[B L]] end.
      + eapply struct_fits; [eassumption|right; apply B| |reflexivity|eapply fields_name; eassumption].
        destruct B as (B1 & B2 & _). apply shape_named in SH as (kvs & -> & _); [|exact B1|exact B2]. discriminate.
      + eapply struct_fits; [eassumption|left; exact L| |reflexivity|eapply fields_position; eassumption].
        intros v ->. cbn [values] in OV. apply f2_same_len in OV. destruct B as [B _]. apply f2_same_len in B. rewrite map_length in OV. cbn [length] in OV. congruence.
    - match goal with H : Forall2 _ fs0 ?tt |- _ => rename H into HF; rename tt into ts' end.
      eapply tuple_fits; [eassumption|assumption| |].
      + eapply in_turn_ok; [exact OV|]. apply f2_map_l. exact HF.
      + apply f2_same_len in OV. apply f2_same_len in HF. rewrite map_length in OV. congruence.
    - match goal with H : Forall2 R ts ?tt |- _ => rename H into HF; rename tt into ts' end.
      eapply tuple_fits; [eassumption|assumption|eapply in_turn_ok; eassumption|]. apply f2_same_len in OV. apply f2_same_len in HF. congruence.
    - match goal with H : Forall2 _ ts ?tt |- _ => rename H into HF; rename tt into fs' end.
      eapply struct_fits; [eassumption|left; assumption| |reflexivity|].
      + intros v E. rewrite E in OV. cbn [values] in OV. apply f2_same_len in OV. apply f2_same_len in HF. cbn [length] in OV. congruence.
      + apply F_by_position; [intros l E; rewrite E in EC; discriminate|]. eapply in_turn_ok; [exact OV|]. apply f2_map_r. exact HF.
    - match goal with H : _ \/ _ |- _ => destruct H as [H|H]; try discriminate; injection H as -> end. destruct (ONE a eq_refl) as (v & EV & OK).
      assert (EC : c = Unnamed [v]) by (inversion SH as [kvs NK E1 E2 E3|]; subst; [destruct kvs as [|? [|]]; discriminate|rewrite EV in *; congruence]).
      eapply inside_fits; [eassumption|exact EV|left; exact EC|apply OK; assumption].
    - match goal with H : _ \/ _ |- _ => destruct H as [H|H]; try discriminate; injection H as -> end. destruct (ONE a eq_refl) as (v & EV & OK).
      assert (EC' : c = Unnamed [v]) by (rewrite EV in EC; exact EC).
      eapply inside_fits; [eassumption|exact EV|left; exact EC'|apply OK; assumption].
    - destruct (ONE a eq_refl) as (v & EV & OK). eapply inside_fits; [eassumption|exact EV|right; assumption|apply OK; assumption].
    - match goal with H : _ \/ _ |- _ => destruct H as [H|H]; try discriminate; injection H as -> end. destruct (ONE a eq_refl) as (v & EV & OK).
      apply (Fits_directly _ _ c x t' []). eapply D_one; [|exact EV|apply OK; assumption].
      match goal with H : atom _ _ |- _ => unfold atom in H; destruct (reg' t') as [| |[]]; try contradiction; eauto 6 end.
    - match goal with H : _ \/ _ |- _ => destruct H as [H|H]; try discriminate; injection H as -> end. destruct (ONE a eq_refl) as (v & EV & OK).
      apply (Fits_directly _ _ c x t' []). eapply D_one; [|exact EV|apply OK; assumption].
      match goal with H : atom _ _ |- _ => unfold atom in H; destruct (reg' t') as [| |[]]; try contradiction; eauto 6 end.
  Qed.

  Lemma prim_fits p q x t' bs : goes reg' X' R (TPrim p) t' -> prim_enc lb PU256 p q bs -> fits (Val (DPrim q) x) t'.
  Proof.
    intros G E. inversion G; subst.
    - assert (HZ : exists z, is_integer q z /\ holds p z).
      { match goal with H : is_int p |- _ => destruct H as (w & [-> | ->]) end; inversion E; subst.
        - exists (Z.of_N n). split; [left; eauto|]. cbn [holds]. split; [lia|]. apply zbits. match goal with H : le_enc _ _ _ |- _ => apply le_enc_iff in H as [_ H] end. rewrite bits_size. assumption.
        - exists z. split; [right; reflexivity|]. assumption. }
      destruct HZ as (z & IZ & HZ). match goal with H : forall z, holds p z -> _ |- _ => apply H in HZ end. edestruct number_ex as [b Hb]; [eassumption..|]. eapply Fits_leaf, L_number; eassumption.
    - assert (HZ : exists z, is_integer q z /\ holds p z).
      { match goal with H : is_int p |- _ => destruct H as (w0 & [-> | ->]) end; inversion E; subst.
        - exists (Z.of_N n). split; [left; eauto|]. cbn [holds]. split; [lia|]. apply zbits. match goal with H : le_enc _ _ _ |- _ => apply le_enc_iff in H as [_ H] end. rewrite bits_size. assumption.
        - exists z. split; [right; reflexivity|]. assumption. }
      destruct HZ as (z & IZ & HZ). match goal with H : forall z, holds p z -> _ |- _ => apply H in HZ end. match goal with C1 : chain _ t' ?u1, R1 : reg' ?u1 = ResTy (TCompact ?k1), C2 : chain _ ?k1 ?u2, R2 : reg' ?u2 = _ |- _ => destruct (number_compact_ex z t' u1 k1 u2 _ C1 R1 C2 R2 HZ) as [b Hb] end. eapply Fits_leaf, L_number; eassumption.
    - inversion E; subst. eapply Fits_leaf, L_char; eassumption.
    - inversion E; subst. edestruct (number_ex (Z.of_N c)) as [b Hb]; [eassumption..| |eapply Fits_leaf, L_code; eassumption].
      match goal with H : forall z, _ -> holds _ z |- _ => apply H end. match goal with H : is_scalar c = true |- _ => unfold is_scalar in H end.
      assert (c < 0x110000); [|lia]. destruct (N.ltb_spec c 0xD800); [lia|]. cbn [orb] in *. match goal with H : andb _ _ = true |- _ => apply Bool.andb_true_iff in H as [_ H]; apply N.ltb_lt in H; exact H end.
    - inversion E; subst.
      + apply (Fits_leaf _ _ _ x t' [0]). apply (L_bool _ _ false t' u); assumption.
      + apply (Fits_leaf _ _ _ x t' [1]). apply (L_bool _ _ true t' u); assumption.
    - inversion E; subst. destruct (prefix_ex (length (utf8 s))) as [b Hb]. eapply Fits_leaf, L_string; eassumption.
    - match goal with H : p = PtU256 \/ p = PtI256 |- _ => destruct H; subst p end; inversion E; subst; eapply Fits_leaf, L_256; try eassumption; reflexivity.
    - match goal with H : _ \/ _ |- _ => destruct H; discriminate end.
    - match goal with H : _ \/ _ |- _ => destruct H; discriminate end.
  Qed.

  (** What is decoded is what Rust can hold. *)
  Lemma prim_enc_wf p q bs : prim_enc lb PU256 p q bs -> prim_wf q = true.
  Proof.
    assert (B32 : forall b, is_bytes b -> length b = 32%nat -> prim_wf (PU256 b) = true).
    { intros b HB HL. cbn [prim_wf]. rewrite HL, Nat.eqb_refl. apply forallb_forall. intros y Hy. apply N.ltb_lt. unfold is_bytes in HB. rewrite Forall_forall in HB. apply HB, Hy. }
    intro H. inversion H; subst; try (apply B32; assumption); cbn [prim_wf]; try reflexivity; try assumption.
    - apply N.ltb_lt. match goal with E : le_enc _ _ _ |- _ => apply le_enc_iff in E as [_ E]; rewrite <- bits_size in E end. eapply N.lt_le_trans; [eassumption|]. apply N.pow_le_mono_r; [lia|]. destruct w; vm_compute; discriminate.
    - assert (2 ^ (Z.of_N (int_bits w) - 1) <= 2 ^ 127)%Z by (apply Z.pow_le_mono_r; [lia|destruct w; vm_compute; discriminate]). apply Bool.andb_true_iff. split; [apply Z.leb_le|apply Z.ltb_lt]; lia.
  Qed.
  Theorem enc_wf : let W := all_nodes (fun d : vdef (value C) => match d with DPrim p => prim_wf p = true | _ => True end) in
    (forall c t v bs, ENC c t v bs -> W v) /\ (forall c ts vs bs, ENCS c ts vs bs -> Forall W vs).
  Proof.
    intro W. apply enc_encs_ind; intros; try assumption.
    - constructor; [eapply prim_enc_wf; eassumption|constructor].
    - constructor; [|constructor]. apply N.ltb_lt. eapply N.lt_le_trans; [eassumption|]. apply N.pow_le_mono_r; [lia|]. destruct w; vm_compute; discriminate.
    - constructor; [exact I|]. cbn [children]. match goal with H : fields_shape _ _ _ |- _ => rewrite (shape_vals _ _ _ H) end. assumption.
    - constructor; [exact I|]. assumption.
    - constructor; [exact I|]. cbn [children]. match goal with H : fields_shape _ _ _ |- _ => rewrite (shape_vals _ _ _ H) end. assumption.
    - constructor; [exact I|]. assumption.
    - constructor; [exact I|]. assumption.
    - constructor; [exact I|constructor].
    - constructor.
    - constructor; assumption.
  Qed.

  Theorem migrate_fits (M : migration reg reg' X' R) :
    (forall c t v bs, ENC c t v bs -> forall t', R t t' -> fits v t') /\ (forall c ts vs bs, ENCS c ts vs bs -> Forall2 OKv ts vs).
  Proof.
    apply enc_encs_ind.
    - intros t p q bs Rt HP t' r. eapply prim_fits; [apply (M _ _ _ r Rt)|exact HP].
    - intros t w n bs Rt Hn HC t' r. apply (prim_fits (PtU w) (PU128 n) _ t' (le_bytes (int_size w) n)); [apply (M _ _ _ r Rt)|]. constructor. apply le_enc_bytes. rewrite <- bits_size. exact Hn.
    - intros c t k v bs Rt HE IH t' r. pose proof (M _ _ _ r Rt) as G. inversion G; subst; try (match goal with H : _ \/ _ |- _ => destruct H; discriminate end). apply IH. assumption.
    - intros c t fs vs cmp bs Rt L HE IH SH t' r. pose proof (shape_vals _ _ _ SH) as SV. subst vs. eapply composite_fits; [apply (M _ _ _ r Rt)|exact IH|]. left. eauto.
    - intros c t ts vs bs Rt L HE IH t' r. eapply composite_fits; [apply (M _ _ _ r Rt)|exact IH|]. right. auto.
    - intros t l1 name idx fs l2 vs cmp bs Rt NI LI HE IH SH t' r. pose proof (M _ _ _ r Rt) as G.
      inversion G; subst; try (match goal with H : _ \/ _ |- _ => destruct H; discriminate end).
      match goal with H1 : chain _ t' ?uu, H2 : reg' ?uu = _, H3 : Forall _ _ |- _ => rename H1 into Ch, H2 into Ru, H3 into HF; rename uu into u end.
      rewrite Forall_forall in HF. destruct (HF (VInfo name idx fs)) as (m1 & idx' & fs' & m2 & -> & NM & B); [apply in_or_app; right; left; reflexivity|]. cbn [vi_name vi_fields] in *.
      apply (Fits_variant _ _ name cmp (ctxf t) t' [idx']). exists u, m1, idx', fs', m2, []. split; [exact Ch|]. split; [exact Ru|]. split; [exact NM|]. split; [reflexivity|].
      destruct B as [B|B]; [eapply fields_name|eapply fields_position]; eassumption.
    - intros t e vs pre bs Rt LN HP HE IH t' r. pose proof (M _ _ _ r Rt) as G. inversion G; subst; try (match goal with H : _ \/ _ |- _ => destruct H; discriminate end).
      destruct (prefix_ex (length vs)) as [b Hb]. eapply Fits_directly, D_sequence; [eassumption|exact Hb|apply (ok_repeat e); eassumption|reflexivity].
    - intros t e n vs bs Rt LN HE IH t' r. pose proof (M _ _ _ r Rt) as G. inversion G; subst; try (match goal with H : _ \/ _ |- _ => destruct H; discriminate end).
      + destruct (prefix_ex (length vs)) as [b Hb]. eapply Fits_directly, D_sequence; [eassumption|exact Hb|apply (ok_repeat e); eassumption|reflexivity].
      + eapply Fits_directly, D_array; [eassumption|reflexivity|apply (ok_repeat e); eassumption].
    - intros t st o b pre bs Rt L32 LM HP HB t' r. pose proof (M _ _ _ r Rt) as G. inversion G; subst; try (match goal with H : _ \/ _ |- _ => destruct H; discriminate end).
      eapply Fits_leaf, L_bits; [eassumption|eassumption|apply bits_bytes_iff; reflexivity].
    - constructor.
    - intros c t ts v vs b bs HE IH HEs IHs. constructor; assumption.
  Qed.
End Migrate.
