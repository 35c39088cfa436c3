(** * EncodeSound: whatever the encoder emits is a valid encoding (C25). *)
From Verif Require Import Base Value ValueFacts Registry Spec_Scale Scale ScaleFacts BitsFacts Decode DecodeFacts Encode EncodeFacts Spec_Encode.
Open Scope N_scope.

Section Sound.
  Context {TId : Type} (reg : TId -> resolution TId) (X : ext) (F : nat).
  Context {C : Type} (ctxf : TId -> C).
  Local Notation mb := (x_maxbits X).
  Local Notation ENC := (enc reg mb 32 ctxf PU256 true).
  Local Notation ENCS := (encs reg mb 32 ctxf PU256 true).

  Lemma shape_exists {V} (names : list (option str)) : forall vs : list V, length names = length vs -> exists cmp, fields_shape names vs cmp.
  Proof.
    intros vs HL.
    assert (D : In None names \/ exists ns, names = map Some ns).
    { clear. induction names as [|[n|] names [IH|[ns ->]]].
      - right. exists []. reflexivity.
      - left. right. exact IH.
      - right. exists (n :: ns). reflexivity.
      - left. left. reflexivity.
      - left. left. reflexivity. }
    destruct D as [D|[ns ->]]; [exists (Unnamed vs); constructor; auto|].
    destruct ns as [|n ns]; [exists (Unnamed vs); constructor; auto|].
    exists (Named (combine (n :: ns) vs)). rewrite map_length in HL.
    assert (E1 : map fst (combine (n :: ns) vs) = n :: ns).
    { clear -HL. revert vs HL. induction (n :: ns) as [|k ks IH]; intros [|v vs] HL; try discriminate; cbn [combine map fst]; [reflexivity|].
      f_equal. apply IH. cbn in HL. lia. }
    assert (E2 : map snd (combine (n :: ns) vs) = vs).
    { clear -HL. revert vs HL. induction (n :: ns) as [|k ks IH]; intros [|v vs] HL; try discriminate; cbn [combine map snd]; [reflexivity|].
      f_equal. apply IH. cbn in HL. lia. }
    set (kvs := combine (n :: ns) vs) in *. rewrite <- E1, <- E2, map_map. constructor. intro E. rewrite E in E1. discriminate.
  Qed.

  Lemma encs_one c t v b : ENC c t v b -> ENCS c [t] [v] b.
  Proof. intro H. rewrite <- (app_nil_r b). constructor; [exact H|constructor]. Qed.

  Lemma wraps1_enc c t t' w b : wraps1 reg t t' -> ENC c t' w b -> exists w', ENC c t w' b.
  Proof.
    intros [u name u' R|u u' R] E.
    - destruct (shape_exists [name] [w] eq_refl) as [cmp S]. exists (Val (DComposite cmp) (ctxf u)).
      eapply E_composite; [exact R|reflexivity|apply encs_one; exact E|exact S].
    - exists (Val (DComposite (Unnamed [w])) (ctxf u)). eapply E_tuple; [exact R|reflexivity|apply encs_one; exact E].
  Qed.
  Lemma wraps_enc t t' w b : wraps reg t t' -> ENC false t' w b -> exists w', ENC false t w' b.
  Proof.
    intros [u u' W|u u' R] E; [eapply wraps1_enc; eauto|].
    exists (Val (DComposite (Unnamed [w])) (ctxf u)). eapply E_array; [exact R|reflexivity|apply encs_one; exact E].
  Qed.
  Lemma chain_enc t t' w b : chain (wraps reg) t t' -> ENC false t' w b -> exists w', ENC false t w' b.
  Proof.
    induction 1 as [t|t t' u W _ IH]; intro E; [eauto|]. destruct (IH E) as [w' E']. eapply wraps_enc; eauto.
  Qed.
  Lemma chain1_enc c t t' w b : chain (wraps1 reg) t t' -> ENC c t' w b -> exists w', ENC c t w' b.
  Proof.
    induction 1 as [t|t t' u W _ IH]; intro E; [eauto|]. destruct (IH E) as [w' E']. eapply wraps1_enc; eauto.
  Qed.

  Lemma find_single_chain f : forall t c t1 d, find_single reg f t c = Some (t1, d) -> chain (wraps reg) t t1.
  Proof.
    induction f as [|f IH]; intros t c t1 d H; [discriminate|]. cbn [find_single] in H.
    destruct (reg t) as [| |[fs|vs|t'|t' n|ts|p|t'|st o]] eqn:R; try (injection H as <- _; constructor; fail).
    - destruct fs as [|[name t'] [|]]; try (injection H as <- _; constructor; fail). eapply Ch_step; [|eapply IH; exact H].
      apply W_one. eapply W_struct; exact R.
    - destruct (N.eqb_spec n 1) as [->|]; [|injection H as <- _; constructor]. eapply Ch_step; [|eapply IH; exact H]. apply W_array, R.
    - destruct ts as [|t' [|]]; try (injection H as <- _; constructor; fail). eapply Ch_step; [|eapply IH; exact H].
      apply W_one, W_tuple, R.
  Qed.
  Lemma skip_through_chain f : forall t t1, skip_through reg f t = Some t1 -> chain (transparent reg) t t1.
  Proof.
    induction f as [|f IH]; intros t t1 H; [discriminate|]. cbn [skip_through] in H.
    destruct (reg t) as [| |[fs|vs|t'|t' n|ts|p|t'|st o]] eqn:R; try (injection H as <-; constructor; fail).
    - destruct fs as [|[[name|] t'] [|]]; try (injection H as <-; constructor; fail). eapply Ch_step; [|eapply IH; exact H].
      apply Tr_struct, R.
    - destruct ts as [|t' [|]]; try (injection H as <-; constructor; fail). eapply Ch_step; [|eapply IH; exact H]. apply Tr_tuple, R.
  Qed.
  Lemma transparent_wraps t t' : transparent reg t t' -> wraps reg t t'.
  Proof. intros [u u' R|u u' R]; apply W_one; [eapply W_struct; exact R|apply W_tuple, R]. Qed.
  Lemma chain_trans_wraps t t' : chain (transparent reg) t t' -> chain (wraps reg) t t'.
  Proof. induction 1; [constructor|]. eapply Ch_step; [apply transparent_wraps; eassumption|assumption]. Qed.

  Context (OK : reg_ok reg).

  Lemma compact_chain t t' u : reg t = ResTy (TCompact t') -> chain (wraps reg) t' u -> chain (wraps1 reg) t' u.
  Proof.
    intros R H. assert (G : forall x, chain (wraps reg) t' x -> chain (wraps reg) x u -> chain (wraps1 reg) x u).
    { intros x Hx Hu. induction Hu as [x|x y u W Hu IH]; [constructor|].
      assert (Hy : chain (wraps reg) t' y).
      { clear -Hx W. induction Hx as [x|a b x Wab _ IH]; [eapply Ch_step; [exact W|constructor]|]. eapply Ch_step; [exact Wab|apply IH, W]. }
      destruct W as [x y W|x y RA].
      - eapply Ch_step; [exact W|]. apply IH; assumption.
      - exfalso. exact (proj2 OK t t' x y R Hx RA). }
    apply G; [constructor|exact H].
  Qed.

  (** Soundness of an encoder at all types. *)
  Definition esnd (e : encoder) : Prop := forall t out out', e t out = (SOk, out') -> exists b w, out' = out ++ b /\ ENC false t w b.

  Lemma le_enc_bytes k n : n < 256 ^ N.of_nat k -> le_enc k n (le_bytes k n).
  Proof. intro H. apply le_enc_iff. auto. Qed.

  Lemma wbits_le w : wbits w <= 128.
  Proof. destruct w; unfold wbits; cbn; lia. Qed.

  Lemma compact_small n : n < 2 ^ 128 -> compact_enc n (compact_encode n).
  Proof. intro H. apply compact_enc_encode. eapply N.lt_trans; [exact H|]. apply N.pow_lt_mono_r; lia. Qed.

  Lemma in_unsigned_N w z : in_unsigned w z = true -> Z.to_N z < 2 ^ wbits w.
  Proof.
    unfold in_unsigned. intro H. assert (E : Z.of_N (2 ^ wbits w) = (2 ^ Z.of_N (wbits w))%Z) by (rewrite N2Z.inj_pow; reflexivity). lia.
  Qed.
  Lemma mod_pow_N w (z : Z) : Z.to_N (z mod 2 ^ Z.of_N w) < 2 ^ w.
  Proof.
    assert (E : Z.of_N (2 ^ w) = (2 ^ Z.of_N w)%Z) by (rewrite N2Z.inj_pow; reflexivity).
    assert (P : (0 < 2 ^ Z.of_N w)%Z) by (apply Z.pow_pos_nonneg; lia).
    pose proof (Z.mod_pos_bound z (2 ^ Z.of_N w) P). lia.
  Qed.

  Lemma encode_number_snd z : esnd (encode_number reg F z).
  Proof.
    intros t out out' H. unfold encode_number in H.
    destruct (find_single reg F t false) as [[t1 b1]|] eqn:FS; [|discriminate]. apply find_single_chain in FS.
    assert (G : forall w b, ENC false t1 w b -> (SOk, out ++ b) = (SOk, out') -> exists b w, out' = out ++ b /\ ENC false t w b).
    { intros w b E [= <-]. destruct (chain_enc _ _ _ _ FS E) as [w' E']. eauto. }
    destruct (reg t1) as [| |[fs|vs|t'|t' n|ts|p|t'|st o]] eqn:R; try discriminate.
    - destruct p; try discriminate.
      + destruct (in_unsigned w z) eqn:I; [|discriminate]. apply in_unsigned_N in I.
        eapply G; [|exact H]. eapply E_prim; [exact R|]. apply (PE_uint _ _ w (Z.to_N z)). same_sizes. apply le_enc_bytes. rewrite <- wbits_pow. exact I.
      + destruct (in_signed w z) eqn:I; [|discriminate].
        eapply G; [|exact H]. eapply E_prim; [exact R|]. apply (PE_int _ _ w z); same_sizes; [unfold in_signed in I; lia|]. apply le_enc_bytes. rewrite <- wbits_pow.
        apply mod_pow_N.
    - destruct (find_single reg F t' false) as [[t3 b3]|] eqn:FS3; [|discriminate]. apply find_single_chain in FS3.
      destruct (reg t3) as [| |[fs|vs|t''|t'' n|ts|p|t''|st o]] eqn:R3; try discriminate.
      destruct p; try discriminate. destruct (in_unsigned w z) eqn:I; [|discriminate]. apply in_unsigned_N in I.
      assert (E3 : ENC true t3 (Val (DPrim (PU128 (Z.to_N z))) (ctxf t3)) (compact_encode (Z.to_N z))).
      { eapply E_compact_uint; [exact R3|exact I|]. apply compact_small. eapply N.lt_le_trans; [exact I|]. apply N.pow_le_mono_r; [lia|apply wbits_le]. }
      destruct (chain1_enc _ _ _ _ _ (compact_chain _ _ _ R FS3) E3) as [w' E'].
      eapply G; [|exact H]. eapply E_compact; eassumption.
  Qed.

  Lemma encode_leaf_snd f : (forall t ty b, reg t = ResTy ty -> f ty = Some b -> exists w, ENC false t w b) -> esnd (encode_leaf reg F f).
  Proof.
    intros Hf t out out' H. unfold encode_leaf in H.
    destruct (find_single reg F t false) as [[t1 b1]|] eqn:FS; [|discriminate]. apply find_single_chain in FS.
    destruct (reg t1) as [| |ty] eqn:R; try discriminate. destruct (f ty) as [b|] eqn:Ef; [|discriminate]. injection H as <-.
    destruct (Hf t1 ty b R Ef) as [w E]. destruct (chain_enc _ _ _ _ FS E) as [w' E']. eauto.
  Qed.

  Lemma mod32 n : n < 2 ^ 32 -> n mod 2 ^ 32 = n. Proof. apply N.mod_small. Qed.
  Lemma compact_small32 n : n < 2 ^ 32 -> compact_enc n (compact_encode n).
  Proof. intro H. apply compact_small. eapply N.lt_trans; [exact H|]. apply N.pow_lt_mono_r; lia. Qed.

  Lemma bits_enc t st o b : reg t = ResTy (TBitSeq st o) -> N.of_nat (length b) < 2 ^ 32 -> N.of_nat (length b) <= mb ->
    ENC false t (Val (DBits b) (ctxf t)) (encode_bits st o b).
  Proof.
    intros R H1 H2. unfold encode_bits. rewrite mod32 by exact H1. eapply E_bits; [exact R|exact H1|exact H2|apply compact_small32; exact H1|].
    apply pack_payload.
  Qed.

  Lemma encode_char_snd c : is_scalar c = true -> esnd (encode_char reg X F c).
  Proof.
    intros Hc t out out' H. unfold encode_char in H.
    destruct (find_single reg F t false) as [[t1 b1]|] eqn:FS; [|discriminate]. pose proof (find_single_chain _ _ _ _ _ FS) as CH.
    assert (G : encode_number reg F (Z.of_N c) t out = (SOk, out') -> exists b w, out' = out ++ b /\ ENC false t w b) by apply encode_number_snd.
    destruct (reg t1) as [| |[fs|vs|t'|t' n|ts|p|t'|st o]] eqn:R; try (apply G; exact H).
    destruct p; try (apply G; exact H). destruct (x_char X); [|discriminate]. injection H as <-.
    assert (E : ENC false t1 (Val (DPrim (PChar c)) (ctxf t1)) (le_bytes 4 c)).
    { eapply E_prim; [exact R|]. constructor; [exact Hc|]. apply le_enc_bytes. unfold is_scalar in Hc. change (256 ^ N.of_nat 4) with 4294967296. lia. }
    destruct (chain_enc _ _ _ _ CH E) as [w' E']. eauto.
  Qed.

  Lemma encode_all_snd es : Forall esnd es -> forall t out out', encode_all es t out = (SOk, out') ->
    exists b vs, out' = out ++ b /\ length vs = length es /\ ENCS false (repeat t (length es)) vs b.
  Proof.
    induction 1 as [|e es He _ IH]; intros t out out' H; cbn [encode_all] in H.
    - injection H as <-. exists [], []. rewrite app_nil_r. repeat split. constructor.
    - destruct (e t out) as [[| |] o1] eqn:E; cbn [andthen] in H; try discriminate.
      apply He in E as (b1 & w & -> & E1). apply IH in H as (b2 & vs & -> & L & E2).
      exists (b1 ++ b2), (w :: vs). rewrite <- app_assoc. split; [reflexivity|]. split; [cbn; congruence|]. cbn [length repeat]. constructor; assumption.
  Qed.

  Lemma encode_byte_array_snd b : is_bytes b -> length b = 32%nat -> forall f, esnd (encode_byte_array reg X F f b).
  Proof.
    intros HB HL.
    assert (NS : Forall esnd (map (fun x => encode_number reg F (Z.of_N x)) b)).
    { apply Forall_map, Forall_forall. intros x _. apply encode_number_snd. }
    induction f as [|f IH]; intros t out out' H; [discriminate|]. cbn [encode_byte_array] in H.
    destruct (reg t) as [| |[fs|vs|t'|t' n|ts|p|t'|st o]] eqn:R; try discriminate.
    - destruct fs as [|[name t'] [|]]; try discriminate. apply IH in H as (b' & w & -> & E).
      destruct (wraps1_enc false t t' w b' (W_struct reg t name t' R) E) as [w' E']. eauto.
    - apply (encode_all_snd _ NS) in H as (b' & vs & -> & L & E). rewrite map_length in *.
      exists (compact_encode (N.of_nat (length b) mod 2 ^ 32) ++ b'), (Val (DComposite (Unnamed vs)) (ctxf t)).
      rewrite app_assoc. split; [reflexivity|]. rewrite <- L in E. rewrite <- L. rewrite mod32 by (rewrite L, HL; reflexivity).
      eapply E_sequence; [exact R|rewrite L, HL; reflexivity|apply compact_small32; rewrite L, HL; reflexivity|exact E].
    - destruct (N.eqb_spec (N.of_nat (length b)) n) as [En|]; [|discriminate].
      apply (encode_all_snd _ NS) in H as (b' & vs & -> & L & E). rewrite map_length in *.
      exists b', (Val (DComposite (Unnamed vs)) (ctxf t)). split; [reflexivity|]. rewrite <- L in E. eapply E_array; [exact R|congruence|exact E].
    - destruct ts as [|t' [|]]; try discriminate. apply IH in H as (b' & w & -> & E).
      destruct (wraps1_enc false t t' w b' (W_tuple reg t t' R) E) as [w' E']. eauto.
    - destruct p; try discriminate; destruct (x_256 X); try discriminate; injection H as <-; exists b; eexists; (split; [reflexivity|]);
        (eapply E_prim; [exact R|constructor; assumption]).
  Qed.

  Lemma encode_primitive_snd p : prim_wf p = true -> match p with PString s => N.of_nat (length (utf8 s)) < 2 ^ 32 | _ => True end ->
    esnd (encode_primitive reg X F p).
  Proof.
    intros Hp Hs. destruct p as [b|c|s|n|z|b|b]; cbn [encode_primitive prim_wf] in *.
    - apply encode_leaf_snd. intros t ty bs R E. destruct ty as [| | | | |[]| |]; try discriminate. injection E as <-.
      eexists. eapply E_prim; [exact R|]. destruct b; constructor.
    - apply encode_char_snd, Hp.
    - apply encode_leaf_snd. intros t ty bs R E. destruct ty as [| | | | |[]| |]; try discriminate. injection E as <-.
      eexists. eapply E_prim; [exact R|]. rewrite mod32 by exact Hs. constructor; [exact Hp|exact Hs|apply compact_small32; exact Hs].
    - apply encode_number_snd.
    - apply encode_number_snd.
    - apply andb_true_iff in Hp as [H1 H2]. apply encode_byte_array_snd; [|apply Nat.eqb_eq; exact H1].
      unfold is_bytes. apply Forall_forall. rewrite forallb_forall in H2. intros x Hx. specialize (H2 x Hx). lia.
    - apply andb_true_iff in Hp as [H1 H2]. apply encode_byte_array_snd; [|apply Nat.eqb_eq; exact H1].
      unfold is_bytes. apply Forall_forall. rewrite forallb_forall in H2. intros x Hx. specialize (H2 x Hx). lia.
  Qed.

  Lemma encode_by_name_snd src : Forall esnd (map snd src) -> forall fs out out', encode_by_name src fs out = (SOk, out') ->
    exists b vs, out' = out ++ b /\ ENCS false (map snd fs) vs b.
  Proof.
    intro HS. induction fs as [|fd fs IH]; intros out out' H; cbn [encode_by_name] in H.
    - injection H as <-. exists [], []. rewrite app_nil_r. split; [reflexivity|constructor].
    - destruct (lookup_last (key_of fd) src) as [e|] eqn:L; [|discriminate]. apply lookup_last_in in L.
      rewrite Forall_forall in HS. specialize (HS e L). destruct (e (snd fd) out) as [[| |] o1] eqn:E; cbn [andthen] in H; try discriminate.
      apply HS in E as (b1 & w & -> & E1). apply IH in H as (b2 & vs & -> & E2).
      exists (b1 ++ b2), (w :: vs). rewrite <- app_assoc. split; [reflexivity|]. cbn [map]. constructor; assumption.
  Qed.
  Lemma encode_in_order_snd es : Forall esnd es -> forall ts out out', length es = length ts -> encode_in_order es ts out = (SOk, out') ->
    exists b vs, out' = out ++ b /\ ENCS false ts vs b.
  Proof.
    induction 1 as [|e es He _ IH]; intros [|t ts] out out' HL H; try discriminate; cbn [encode_in_order] in H.
    - injection H as <-. exists [], []. rewrite app_nil_r. split; [reflexivity|constructor].
    - destruct (e t out) as [[| |] o1] eqn:E; cbn [andthen] in H; try discriminate.
      apply He in E as (b1 & w & -> & E1). apply IH in H as (b2 & vs & -> & E2); [|cbn in HL; lia].
      exists (b1 ++ b2), (w :: vs). rewrite <- app_assoc. split; [reflexivity|]. constructor; assumption.
  Qed.
  Lemma encode_fields_snd src : Forall esnd (map snd src) -> forall fs out out', encode_fields src fs out = (SOk, out') ->
    exists b vs, out' = out ++ b /\ ENCS false (map snd fs) vs b.
  Proof.
    intros HS fs out out' H. unfold encode_fields in H. destruct (_ && _); [eapply encode_by_name_snd; eassumption|].
    destruct (Nat.eqb_spec (length fs) (length src)) as [E|]; [|discriminate].
    eapply encode_in_order_snd; [exact HS|rewrite !map_length; congruence|exact H].
  Qed.

  Lemma encode_struct_snd src : Forall esnd (map snd src) -> forall t out out', encode_struct reg F src t out = (SOk, out') ->
    exists b w, out' = out ++ b /\ ENC false t w b.
  Proof.
    intros HS t out out' H. unfold encode_struct in H. destruct (skip_through reg F t) as [t1|] eqn:SK; [|discriminate].
    apply skip_through_chain, chain_trans_wraps in SK.
    assert (G : (exists b w, out' = out ++ b /\ ENC false t1 w b) -> exists b w, out' = out ++ b /\ ENC false t w b).
    { intros (b & w & -> & E). destruct (chain_enc _ _ _ _ SK E) as [w' E']. eauto. }
    apply G.
    assert (S1 : forall r, match src with [(_, e)] => e t1 out | _ => r end = (SOk, out') -> (exists b w, out' = out ++ b /\ ENC false t1 w b) \/ r = (SOk, out')).
    { intros r Hr. destruct src as [|[n e] [|]]; [right; exact Hr| |right; exact Hr]. left. inversion HS as [|? ? He]; subst. apply He. exact Hr. }
    assert (S2 : forall r, match src with [(None, e)] => e t1 out | _ => r end = (SOk, out') -> (exists b w, out' = out ++ b /\ ENC false t1 w b) \/ r = (SOk, out')).
    { intros r Hr. destruct src as [|[[n|] e] [|]]; try (right; exact Hr). left. inversion HS as [|? ? He]; subst. apply He. exact Hr. }
    destruct (reg t1) as [| |[fs|vs|t'|t' n|ts|p|t'|st o]] eqn:R; try discriminate;
      try (apply S1 in H as [H|H]; [exact H|discriminate]).
    - apply S2 in H as [H|H]; [exact H|]. apply encode_fields_snd in H as (b & vs & -> & E); [|exact HS].
      pose proof (encs_length reg X ctxf _ _ _ _ _ _ E) as L. rewrite map_length in L.
      destruct (shape_exists (map fst fs) vs) as [cmp Sh]; [rewrite map_length; congruence|].
      eexists b, _. split; [reflexivity|]. eapply E_composite; [exact R|discriminate|exact E|exact Sh].
    - apply S1 in H as [H|H]; [exact H|]. apply encode_fields_snd in H as (b & vs & -> & E); [|exact HS].
      rewrite map_map in E. cbn [snd] in E. rewrite map_id in E.
      eexists b, _. split; [reflexivity|]. eapply E_tuple; [exact R|discriminate|exact E].
  Qed.

  Section Items.
    Context {T : Type}.
    Local Notation item := (value T * encoder (TId:=TId))%type.

    Lemma bit_of_iff (v : value T) b : bit_of v = Some b <-> is_bit v b.
    Proof.
      destruct v as [[c|n c|l|p] ctx]; cbn; try (split; [discriminate|intro H; inversion H]; fail).
      destruct p as [x|x|x|n|z|x|x]; cbn; try (split; [discriminate|intro H; inversion H]; fail).
      - split; [intros [= ->]; constructor|intro H; inversion H; reflexivity].
      - destruct (N.eqb_spec n 0) as [->|N0]; [cbn; split; [intros [= <-]; constructor|intro H; inversion H; reflexivity]|].
        destruct (N.eqb_spec n 1) as [->|N1]; [cbn; split; [intros [= <-]; constructor|intro H; inversion H; reflexivity]|].
        cbn. split; [discriminate|intro H; inversion H; subst; contradiction].
      - destruct (Z.eqb_spec z 0) as [->|N0]; [cbn; split; [intros [= <-]; constructor|intro H; inversion H; reflexivity]|].
        destruct (Z.eqb_spec z 1) as [->|N1]; [cbn; split; [intros [= <-]; constructor|intro H; inversion H; reflexivity]|].
        cbn. split; [discriminate|intro H; inversion H; subst; contradiction].
    Qed.
    Lemma bits_of_iff (vs : list (value T)) bs : bits_of vs = Some bs <-> Forall2 is_bit vs bs.
    Proof.
      revert bs; induction vs as [|v vs IH]; intro bs; cbn [bits_of].
      - split; [intros [= <-]; constructor|intro H; inversion H; reflexivity].
      - split.
        + destruct (bit_of v) as [b|] eqn:B; [|discriminate]. destruct (bits_of vs) as [bs'|]; [|discriminate]. intros [= <-].
          constructor; [apply bit_of_iff, B|apply IH; reflexivity].
        + intro H. inversion H as [|? b ? bs' Hb Hbs]; subst. apply bit_of_iff in Hb. rewrite Hb. apply IH in Hbs. rewrite Hbs. reflexivity.
    Qed.

    Lemma do_encode_snd (c : composite item) : Forall esnd (map snd (values c)) -> N.of_nat (length (values c)) < 2 ^ 32 ->
      (forall bs, Forall2 is_bit (map fst (values c)) bs -> N.of_nat (length bs) <= mb) ->
      forall t out out', do_encode reg F c t out = (SOk, out') -> exists b w, out' = out ++ b /\ ENC false t w b.
    Proof.
      intros HS HN HM t out out' H. unfold do_encode in H. rewrite clen_values in H.
      assert (S0 : match values c with [x] => snd x t out | _ => (SErr XWrongShape, out) end = (SOk, out') -> exists b w, out' = out ++ b /\ ENC false t w b).
      { intro E. destruct (values c) as [|x [|]]; try discriminate. cbn in HS. inversion HS as [|? ? He]; subst. apply He, E. }
      assert (S1 : encode_struct reg F (source_fields (composite_map snd c)) t out = (SOk, out') -> exists b w, out' = out ++ b /\ ENC false t w b).
      { apply encode_struct_snd. rewrite source_fields_snd, values_map. exact HS. }
      destruct (reg t) as [| |[fs|vs|t'|t' n|ts|p|t'|st o]] eqn:R; try discriminate; try (apply S0, H); try (apply S1, H).
      - apply (encode_all_snd _ HS) in H as (b' & vs & -> & L & E). rewrite map_length in *.
        exists (compact_encode (N.of_nat (length (values c)) mod 2 ^ 32) ++ b'), (Val (DComposite (Unnamed vs)) (ctxf t)).
        rewrite app_assoc. split; [reflexivity|]. rewrite <- L in E, HN |- *. rewrite mod32 by exact HN.
        eapply E_sequence; [exact R|exact HN|apply compact_small32, HN|exact E].
      - destruct (N.eqb_spec (N.of_nat (length (values c))) n) as [En|]; [|discriminate].
        apply (encode_all_snd _ HS) in H as (b' & vs & -> & L & E). rewrite map_length in *.
        exists b', (Val (DComposite (Unnamed vs)) (ctxf t)). split; [reflexivity|]. rewrite <- L in E. eapply E_array; [exact R|congruence|exact E].
      - destruct (bits_of (map fst (values c))) as [b|] eqn:B; [|discriminate]. injection H as <-.
        apply bits_of_iff in B. pose proof (Forall2_length' _ _ _ B) as L. rewrite map_length in L.
        eexists _, _. split; [reflexivity|]. apply bits_enc; [exact R|rewrite <- L; exact HN|apply HM, B].
    Qed.

    Lemma encode_composite_snd (c : composite item) : Forall esnd (map snd (values c)) -> N.of_nat (length (values c)) < 2 ^ 32 ->
      (forall bs, Forall2 is_bit (map fst (values c)) bs -> N.of_nat (length bs) <= mb) -> esnd (encode_composite reg F c).
    Proof.
      intros HS HN HM t out out' H. pose proof (do_encode_snd c HS HN HM) as D. unfold encode_composite in H.
      destruct (do_encode reg F c t []) as [[|e|] tmp] eqn:E1; [|clear E1|discriminate].
      { injection H as <-. apply D in E1 as (b & w & -> & E). eauto. }
      destruct (find_single reg F t false) as [[t' d]|] eqn:FS; [|discriminate]. apply find_single_chain in FS.
      assert (G : forall tmp, (exists b w, tmp = [] ++ b /\ ENC false t' w b) -> (SOk, out ++ tmp) = (SOk, out') -> exists b w, out' = out ++ b /\ ENC false t w b).
      { intros tmp0 (b & w & -> & E) [= <-]. destruct (chain_enc _ _ _ _ FS E) as [w' E']. eauto. }
      destruct (if d then do_encode reg F c t' [] else (SErr e, [])) as [[|e'|] tmp'] eqn:E2; [|clear E2|discriminate].
      { destruct d; [|discriminate]. eapply G; [|exact H]. eapply D, E2. }
      destruct (values c) as [|x [|]]; try discriminate. destruct (snd x t' []) as [[| |] tmp''] eqn:E3; try discriminate.
      eapply G; [|exact H]. cbn in HS. inversion HS as [|? ? He]; subst. apply He, E3.
    Qed.

    Lemma find_name_split (vs : list (vinfo TId)) name v : find (fun v => str_eqb (vi_name v) name) vs = Some v ->
      exists l1 l2, vs = l1 ++ v :: l2 /\ vi_name v = name /\ ~ In name (map vi_name l1).
    Proof.
      induction vs as [|u vs IH]; cbn [find]; [discriminate|]. destruct (str_eqb (vi_name u) name) eqn:E.
      - intros [= <-]. exists [], vs. split; [reflexivity|]. split; [apply str_eqb_eq; exact E|]. intros [].
      - intro H. apply IH in H as (l1 & l2 & -> & Hi & Hn). exists (u :: l1), l2. split; [reflexivity|]. split; [exact Hi|].
        cbn [map]. intros [H|H]; [apply str_eqb_neq in E; exact (E H)|exact (Hn H)].
    Qed.

    Lemma encode_variant_snd name (c : composite item) : Forall esnd (map snd (values c)) -> esnd (encode_variant reg F name c).
    Proof.
      intros HS t out out' H. unfold encode_variant in H. destruct (skip_through reg F t) as [t1|] eqn:SK; [|discriminate].
      apply skip_through_chain, chain_trans_wraps in SK.
      destruct (reg t1) as [| |[fs|vs|t'|t' n|ts|p|t'|st o]] eqn:R; try discriminate.
      destruct (find _ vs) as [v|] eqn:FD; [|discriminate].
      apply encode_fields_snd in H as (b & ws & -> & E); [|rewrite source_fields_snd, values_map; exact HS].
      apply find_name_split in FD as (l1 & l2 & -> & <- & _). destruct (proj1 OK _ _ R) as [ND HB].
      pose proof (encs_length reg X ctxf _ _ _ _ _ _ E) as L. rewrite map_length in L.
      destruct (shape_exists (map fst (vi_fields v)) ws) as [cmp Sh]; [rewrite map_length; congruence|].
      assert (E' : ENC false t1 (Val (DVariant (vi_name v) cmp) (ctxf t1)) (vi_index v :: b)).
      { destruct v as [vn vi vf]. cbn [vi_name vi_index vi_fields] in *. eapply E_variant; [exact R| | |exact E|exact Sh].
        - rewrite map_app in ND. cbn [map vi_index] in ND. apply NoDup_remove_2 in ND. intro Hi. apply ND, in_or_app. left. exact Hi.
        - rewrite Forall_forall in HB. apply (HB (VInfo vn vi vf)). apply in_or_app. right. left. reflexivity. }
      destruct (chain_enc _ _ _ _ SK E') as [w'' E'']. exists (vi_index v :: b), w''. rewrite <- app_assoc. split; [reflexivity|exact E''].
    Qed.

    Theorem encode_snd (v : value T) : small mb v -> esnd (encode reg X F v).
    Proof.
      induction v as [d ctx IH] using value_ind'. intro HS. inversion HS as [d' ctx' Hd Hc]; subst.
      assert (HI : forall c, values c = children d -> Forall esnd (map snd (values (composite_map (fun x => (x, encode reg X F x)) c)))).
      { intros c E. rewrite values_map, map_map, E. cbn [snd]. apply Forall_map. rewrite Forall_forall in IH, Hc |- *. intros x Hx. apply IH; [exact Hx|apply Hc, Hx]. }
      destruct d as [c|n c|b|p]; cbn [encode].
      - cbn [node_small] in Hd. destruct Hd as [HN HM]. apply encode_composite_snd.
        + apply HI. reflexivity.
        + rewrite values_map, map_length. exact HN.
        + intros bs Hbs. rewrite values_map, map_map in Hbs. cbn [fst] in Hbs. rewrite map_id in Hbs. apply HM, Hbs.
      - apply encode_variant_snd, HI. reflexivity.
      - apply encode_leaf_snd. intros t ty bs R E. destruct ty; try discriminate. injection E as <-. eexists. cbn in Hd. apply bits_enc; [exact R|apply Hd|apply Hd].
      - cbn in Hd. apply encode_primitive_snd; apply Hd.
    Qed.

    Lemma encode_composite_as_fields_snd (c : composite (value T)) : Forall (small mb) (values c) -> forall fs out out',
      encode_composite_as_fields reg X F c fs out = (SOk, out') -> exists b vs, out' = out ++ b /\ ENCS false (map snd fs) vs b.
    Proof.
      intros HS fs out out' H. eapply encode_fields_snd; [|exact H]. rewrite source_fields_snd, values_map. apply Forall_map.
      rewrite Forall_forall in *. intros x Hx. apply encode_snd, HS, Hx.
    Qed.
  End Items.
End Sound.
