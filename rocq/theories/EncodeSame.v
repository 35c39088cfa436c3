(** * EncodeSame: what the encoder emits decodes to the same data (C64). *)
From Verif Require Import Base Value ValueFacts Registry Spec_Scale Scale ScaleFacts BitsFacts Decode DecodeFacts Encode EncodeFacts Spec_Encode EncodeSound Spec_Same.
Open Scope N_scope.

Section SameData.
  Context {TId : Type} (reg : TId -> resolution TId) (X : ext) (F : nat).
  Context {C : Type} (ctxf : TId -> C).
  Local Notation mb := (x_maxbits X).
  Local Notation ENC := (enc reg mb 32 ctxf PU256 true).
  Local Notation ENCS := (encs reg mb 32 ctxf PU256 true).

  (** Properties that do not see single-value composites. *)
  Definition wrapc (P : value C -> Prop) : Prop := forall cmp w y, values cmp = [w] -> P w -> P (Val (DComposite cmp) y).
  Lemma same_wrapc {T} (v : value T) : wrapc (same v).
  Proof. intros cmp w y. apply Same_wrapped. Qed.

  Lemma shape_values {V} names (vs : list V) cmp : fields_shape names vs cmp -> values cmp = vs.
  Proof. intros [kvs H|ns vs' H1 H2]; reflexivity. Qed.

  Lemma wraps1_P P c t t' w b : wrapc P -> wraps1 reg t t' -> ENC c t' w b -> P w -> exists w', ENC c t w' b /\ P w'.
  Proof.
    intros WP [u name u' R|u u' R] E HP.
    - destruct (shape_exists [name] [w] eq_refl) as [cmp S]. exists (Val (DComposite cmp) (ctxf u)).
      split; [eapply E_composite; [exact R|reflexivity|apply encs_one; exact E|exact S]|]. eapply WP; [eapply shape_values, S|exact HP].
    - exists (Val (DComposite (Unnamed [w])) (ctxf u)).
      split; [eapply E_tuple; [exact R|reflexivity|apply encs_one; exact E]|]. eapply WP; [reflexivity|exact HP].
  Qed.
  Lemma wraps_P P t t' w b : wrapc P -> wraps reg t t' -> ENC false t' w b -> P w -> exists w', ENC false t w' b /\ P w'.
  Proof.
    intros WP [u u' W|u u' R] E HP; [eapply wraps1_P; eauto|].
    exists (Val (DComposite (Unnamed [w])) (ctxf u)). split; [eapply E_array; [exact R|reflexivity|apply encs_one; exact E]|]. eapply WP; [reflexivity|exact HP].
  Qed.
  Lemma chain_P P t t' w b : wrapc P -> chain (wraps reg) t t' -> ENC false t' w b -> P w -> exists w', ENC false t w' b /\ P w'.
  Proof.
    intro WP. induction 1 as [t|t t' u W _ IH]; intros E HP; [eauto|]. destruct (IH E HP) as (w' & E' & HP'). eapply wraps_P; eauto.
  Qed.
  Lemma chain1_P P c t t' w b : wrapc P -> chain (wraps1 reg) t t' -> ENC c t' w b -> P w -> exists w', ENC c t w' b /\ P w'.
  Proof.
    intro WP. induction 1 as [t|t t' u W _ IH]; intros E HP; [eauto|]. destruct (IH E HP) as (w' & E' & HP'). eapply wraps1_P; eauto.
  Qed.

  Context (OK : reg_ok reg) (NU : names_uniform reg).

  (** Success means valid bytes for a value with [P]. *)
  Definition emits (P : value C -> Prop) (e : encoder) : Prop :=
    forall t out out', e t out = (SOk, out') -> exists b w, out' = out ++ b /\ ENC false t w b /\ P w.

  Lemma emits_number P z : wrapc P -> (forall n y, z = Z.of_N n -> P (Val (DPrim (PU128 n)) y)) -> (forall y, P (Val (DPrim (PI128 z)) y)) ->
    emits P (encode_number reg F z).
  Proof.
    intros WP PU PI t out out' H. unfold encode_number in H.
    destruct (find_single reg F t false) as [[t1 b1]|] eqn:FS; [|discriminate]. apply find_single_chain in FS.
    assert (G : forall w b, ENC false t1 w b -> P w -> (SOk, out ++ b) = (SOk, out') -> exists b w, out' = out ++ b /\ ENC false t w b /\ P w).
    { intros w b E HP [= <-]. destruct (chain_P P _ _ _ _ WP FS E HP) as (w' & E' & HP'). eauto. }
    assert (UZ : forall w, in_unsigned w z = true -> z = Z.of_N (Z.to_N z)) by (unfold in_unsigned; intros; lia).
    destruct (reg t1) as [| |[fs|vs|t'|t' n|ts|p|t'|st o]] eqn:R; try discriminate.
    - destruct p; try discriminate.
      + destruct (in_unsigned w z) eqn:I; [|discriminate]. pose proof (UZ _ I) as EZ. apply in_unsigned_N in I.
        eapply G; [|apply (PU _ (ctxf t1) EZ)|exact H]. eapply E_prim; [exact R|]. apply (PE_uint _ _ w (Z.to_N z)). same_sizes. apply le_enc_bytes. rewrite <- wbits_pow. exact I.
      + destruct (in_signed w z) eqn:I; [|discriminate].
        eapply G; [|apply (PI (ctxf t1))|exact H]. eapply E_prim; [exact R|]. apply (PE_int _ _ w z); same_sizes; [unfold in_signed in I; lia|]. apply le_enc_bytes. rewrite <- wbits_pow.
        apply mod_pow_N.
    - destruct (find_single reg F t' false) as [[t3 b3]|] eqn:FS3; [|discriminate]. apply find_single_chain in FS3.
      destruct (reg t3) as [| |[fs|vs|t''|t'' n|ts|p|t''|st o]] eqn:R3; try discriminate.
      destruct p; try discriminate. destruct (in_unsigned w z) eqn:I; [|discriminate]. pose proof (UZ _ I) as EZ. apply in_unsigned_N in I.
      assert (E3 : ENC true t3 (Val (DPrim (PU128 (Z.to_N z))) (ctxf t3)) (compact_encode (Z.to_N z))).
      { eapply E_compact_uint; [exact R3|exact I|]. apply compact_small. eapply N.lt_le_trans; [exact I|]. apply N.pow_le_mono_r; [lia|apply wbits_le]. }
      destruct (chain1_P P _ _ _ _ _ WP (compact_chain reg OK _ _ _ R FS3) E3 (PU _ _ EZ)) as (w' & E' & HP').
      eapply G; [|exact HP'|exact H]. eapply E_compact; eassumption.
  Qed.
  Lemma emits_integer {T} p z (x : T) : is_integer p z -> emits (same (Val (DPrim p) x)) (encode_number reg F z).
  Proof.
    intro H. apply emits_number; [apply same_wrapc| |].
    - intros n y ->. eapply Same_integer; [exact H|]. left. eauto.
    - intro y. eapply Same_integer; [exact H|]. right. reflexivity.
  Qed.

  Lemma emits_leaf P f : wrapc P -> (forall t ty b, reg t = ResTy ty -> f ty = Some b -> exists w, ENC false t w b /\ P w) -> emits P (encode_leaf reg F f).
  Proof.
    intros WP Hf t out out' H. unfold encode_leaf in H.
    destruct (find_single reg F t false) as [[t1 b1]|] eqn:FS; [|discriminate]. apply find_single_chain in FS.
    destruct (reg t1) as [| |ty] eqn:R; try discriminate. destruct (f ty) as [b|] eqn:Ef; [|discriminate]. injection H as <-.
    destruct (Hf t1 ty b R Ef) as (w & E & HP). destruct (chain_P P _ _ _ _ WP FS E HP) as (w' & E' & HP'). eauto.
  Qed.

  Lemma emits_char {T} c (x : T) : is_scalar c = true -> emits (same (Val (DPrim (PChar c)) x)) (encode_char reg X F c).
  Proof.
    intros Hc t out out' H. unfold encode_char in H.
    destruct (find_single reg F t false) as [[t1 b1]|] eqn:FS; [|discriminate]. pose proof (find_single_chain reg _ _ _ _ _ FS) as CH.
    assert (G : encode_number reg F (Z.of_N c) t out = (SOk, out') -> exists b w, out' = out ++ b /\ ENC false t w b /\ same (Val (DPrim (PChar c)) x) w).
    { apply emits_number; [apply same_wrapc| |].
      - intros n y E. apply Same_code. left. exists n. split; [reflexivity|exact E].
      - intro y. apply Same_code. right. reflexivity. }
    destruct (reg t1) as [| |[fs|vs|t'|t' n|ts|p|t'|st o]] eqn:R; try (apply G; exact H).
    destruct p; try (apply G; exact H). destruct (x_char X); [|discriminate]. injection H as <-.
    assert (E : ENC false t1 (Val (DPrim (PChar c)) (ctxf t1)) (le_bytes 4 c)).
    { eapply E_prim; [exact R|]. constructor; [exact Hc|]. apply le_enc_bytes. unfold is_scalar in Hc. change (256 ^ N.of_nat 4) with 4294967296. lia. }
    destruct (chain_P _ _ _ _ _ (same_wrapc (Val (DPrim (PChar c)) x)) CH E (Same_char _ _ _)) as (w' & E' & HP'). eauto.
  Qed.

  (** Encoders with what they emit. *)
  Local Notation pe := ((value C -> Prop) * encoder (TId:=TId))%type.
  Definition emits' (p : pe) : Prop := emits (fst p) (snd p).
  Lemma emits_all ps : Forall emits' ps -> forall t out out', encode_all (map snd ps) t out = (SOk, out') ->
    exists b vs, out' = out ++ b /\ ENCS false (repeat t (length ps)) vs b /\ Forall2 (fun (p : pe) w => fst p w) ps vs.
  Proof.
    induction 1 as [|[P e] ps He _ IH]; intros t out out' H; cbn [map snd encode_all] in H.
    - injection H as <-. exists [], []. rewrite app_nil_r. repeat split; constructor.
    - destruct (e t out) as [[| |] o1] eqn:E; cbn [andthen] in H; try discriminate.
      apply He in E as (b1 & w & -> & E1 & P1). apply IH in H as (b2 & vs & -> & E2 & P2).
      exists (b1 ++ b2), (w :: vs). rewrite <- app_assoc. split; [reflexivity|]. split; [cbn [length repeat]; constructor; assumption|]. constructor; assumption.
  Qed.
  Lemma emits_in_order ps : Forall emits' ps -> forall ts out out', length ps = length ts -> encode_in_order (map snd ps) ts out = (SOk, out') ->
    exists b vs, out' = out ++ b /\ ENCS false ts vs b /\ Forall2 (fun (p : pe) w => fst p w) ps vs.
  Proof.
    induction 1 as [|[P e] ps He _ IH]; intros [|t ts] out out' HL H; try discriminate; cbn [map snd encode_in_order] in H.
    - injection H as <-. exists [], []. rewrite app_nil_r. repeat split; constructor.
    - destruct (e t out) as [[| |] o1] eqn:E; cbn [andthen] in H; try discriminate.
      apply He in E as (b1 & w & -> & E1 & P1). apply IH in H as (b2 & vs & -> & E2 & P2); [|cbn in HL; lia].
      exists (b1 ++ b2), (w :: vs). rewrite <- app_assoc. split; [reflexivity|]. split; constructor; assumption.
  Qed.

  Lemma emits_byte_array {T} p b (x : T) : bytes_of_256 p = Some b -> is_bytes b -> length b = 32%nat ->
    forall f, emits (same (Val (DPrim p) x)) (encode_byte_array reg X F f b).
  Proof.
    intros Hp HB HL.
    set (ps := map (fun n => (same (Val (DPrim (PU128 n)) x), encode_number reg F (Z.of_N n))) b : list pe).
    assert (NS : Forall emits' ps).
    { apply Forall_map, Forall_forall. intros n _. apply emits_integer. left. eauto. }
    assert (EP : map (fun n => encode_number reg F (Z.of_N n)) b = map snd ps) by (unfold ps; rewrite map_map; reflexivity).
    assert (LP : length ps = length b) by (unfold ps; apply map_length).
    assert (F2 : forall vs, Forall2 (fun (p : pe) w => fst p w) ps vs -> Forall2 (fun n w => same (Val (DPrim (PU128 n)) x) w) b vs).
    { unfold ps. clear. induction b as [|n b IH]; intros vs H; inversion H; subst; constructor; auto. }
    assert (WP := same_wrapc (Val (DPrim p) x)).
    induction f as [|f IH]; intros t out out' H; [discriminate|]. cbn [encode_byte_array] in H. rewrite EP in H.
    destruct (reg t) as [| |[fs|vs|t'|t' n|ts|q|t'|st o]] eqn:R; try discriminate.
    - destruct fs as [|[name t'] [|]]; try discriminate. apply IH in H as (b' & w & -> & E & HP).
      destruct (wraps1_P _ false t t' w b' WP (W_struct reg t name t' R) E HP) as (w' & E' & HP'). eauto.
    - apply (emits_all _ NS) in H as (b' & vs & -> & E & HF). rewrite LP in *. apply F2 in HF. pose proof (Forall2_length' _ _ _ HF) as L.
      exists (compact_encode (N.of_nat (length b) mod 2 ^ 32) ++ b'), (Val (DComposite (Unnamed vs)) (ctxf t)).
      rewrite app_assoc. split; [reflexivity|]. split; [|eapply Same_256_bytes; eassumption].
      rewrite L in E. rewrite L. rewrite mod32 by (rewrite <- L, HL; reflexivity).
      eapply E_sequence; [exact R|rewrite <- L, HL; reflexivity|apply compact_small32; rewrite <- L, HL; reflexivity|exact E].
    - destruct (N.eqb_spec (N.of_nat (length b)) n) as [En|]; [|discriminate].
      apply (emits_all _ NS) in H as (b' & vs & -> & E & HF). rewrite LP in *. apply F2 in HF. pose proof (Forall2_length' _ _ _ HF) as L.
      exists b', (Val (DComposite (Unnamed vs)) (ctxf t)). split; [reflexivity|]. split; [|eapply Same_256_bytes; eassumption].
      rewrite L in E. eapply E_array; [exact R|congruence|exact E].
    - destruct ts as [|t' [|]]; try discriminate. apply IH in H as (b' & w & -> & E & HP).
      destruct (wraps1_P _ false t t' w b' WP (W_tuple reg t t' R) E HP) as (w' & E' & HP'). eauto.
    - destruct q; try discriminate; destruct (x_256 X); try discriminate; injection H as <-; exists b; eexists; (split; [reflexivity|]);
        (split; [eapply E_prim; [exact R|constructor; assumption]|eapply Same_256; [exact Hp|reflexivity]]).
  Qed.

  Lemma emits_primitive {T} p (x : T) : prim_wf p = true -> match p with PString s => N.of_nat (length (utf8 s)) < 2 ^ 32 | _ => True end ->
    emits (same (Val (DPrim p) x)) (encode_primitive reg X F p).
  Proof.
    intros Hp Hs. destruct p as [b|c|s|n|z|b|b]; cbn [encode_primitive prim_wf] in *.
    - apply emits_leaf; [apply same_wrapc|]. intros t ty bs R E. destruct ty as [| | | | |[]| |]; try discriminate. injection E as <-.
      exists (Val (DPrim (PBool b)) (ctxf t)). split; [eapply E_prim; [exact R|]; destruct b; constructor|constructor].
    - apply emits_char, Hp.
    - apply emits_leaf; [apply same_wrapc|]. intros t ty bs R E. destruct ty as [| | | | |[]| |]; try discriminate. injection E as <-.
      exists (Val (DPrim (PString s)) (ctxf t)). split; [|constructor]. eapply E_prim; [exact R|]. rewrite mod32 by exact Hs.
      constructor; [exact Hp|exact Hs|apply compact_small32; exact Hs].
    - apply emits_integer. left. eauto.
    - apply emits_integer. right. reflexivity.
    - apply andb_true_iff in Hp as [H1 H2]. apply emits_byte_array; [reflexivity| |apply Nat.eqb_eq; exact H1].
      unfold is_bytes. apply Forall_forall. rewrite forallb_forall in H2. intros y Hy. specialize (H2 y Hy). lia.
    - apply andb_true_iff in Hp as [H1 H2]. apply emits_byte_array; [reflexivity| |apply Nat.eqb_eq; exact H1].
      unfold is_bytes. apply Forall_forall. rewrite forallb_forall in H2. intros y Hy. specialize (H2 y Hy). lia.
  Qed.

  Section Items.
    Context {T : Type}.
    Local Notation item := (value T * encoder (TId:=TId))%type.
    Definition good (it : item) : Prop := emits (same (fst it)) (snd it).
    Definition as_pe (it : item) : pe := (same (fst it), snd it).

    Lemma good_pe its : Forall good its -> Forall emits' (map as_pe its).
    Proof. intro H. apply Forall_map. exact H. Qed.
    Lemma pe_snd its : map snd (map as_pe its) = map snd its.
    Proof. rewrite map_map. reflexivity. Qed.
    Lemma pe_same its vs : Forall2 (fun (p : pe) w => fst p w) (map as_pe its) vs -> Forall2 same (map fst its) vs.
    Proof. revert vs. induction its as [|it its IH]; intros vs H; inversion H; subst; constructor; auto. Qed.

    Lemma lookup_entry name (l : list (str * item)) e : lookup_last name (map (fun kv => (Some (fst kv), snd (snd kv))) l) = Some e ->
      exists l1 v l2, l = l1 ++ (name, (v, e)) :: l2 /\ ~ In name (map fst l2).
    Proof.
      induction l as [|[k [v e']] l IH]; cbn [map lookup_last fst snd]; [discriminate|].
      destruct (lookup_last name (map (fun kv => (Some (fst kv), snd (snd kv))) l)) as [e0|] eqn:L.
      - intros [= ->]. destruct (IH eq_refl) as (l1 & v0 & l2 & -> & Hn). exists ((k, (v, e')) :: l1), v0, l2. split; [reflexivity|exact Hn].
      - cbn [key_of fst]. destruct (str_eqb k name) eqn:E; [|discriminate]. intros [= <-]. apply str_eqb_eq in E. subst k.
        exists [], v, l. split; [reflexivity|]. clear -L. induction l as [|[k [v e']] l IH]; cbn [map fst lookup_last snd] in *; [intros []|].
        destruct (lookup_last name _) eqn:E; [discriminate|]. cbn [key_of fst] in L. destruct (str_eqb k name) eqn:E2; [discriminate|].
        apply str_eqb_neq in E2. intros [H|H]; [exact (E2 H)|exact (IH eq_refl H)].
    Qed.

    Lemma emits_by_name (l : list (str * item)) : Forall good (map snd l) -> forall fs out out', (forall f : field TId, In f fs -> fst f <> None) ->
      encode_by_name (map (fun kv => (Some (fst kv), snd (snd kv))) l) fs out = (SOk, out') ->
      exists b l', out' = out ++ b /\ ENCS false (map snd fs) (map snd l') b /\ map fst fs = map (fun kv => Some (fst kv)) l' /\
        Forall (fun kv => exists v, last_entry (map (fun kv : str * item => (fst kv, fst (snd kv))) l) (fst kv) v /\ same v (snd kv)) l'.
    Proof.
      intro HS. induction fs as [|[[k|] t] fs IH]; intros out out' HN H; cbn [encode_by_name] in H.
      - injection H as <-. exists [], []. rewrite app_nil_r. repeat split; constructor.
      - change (key_of (Some k, t)) with k in H. cbn [snd] in H. match type of H with match ?x with _ => _ end = _ => destruct x as [e|] eqn:L end; [|discriminate].
        apply lookup_entry in L as (l1 & v & l2 & EL & Hn).
        assert (G : good (v, e)). { rewrite Forall_forall in HS. apply HS. rewrite EL, map_app. apply in_or_app. right. left. reflexivity. }
        destruct (e t out) as [[| |] o1] eqn:E; cbn [andthen] in H; try discriminate.
        apply G in E as (b1 & w & -> & E1 & P1). apply IH in H as (b2 & l' & -> & E2 & EN & P2); [|intros f Hf; apply HN; right; exact Hf].
        exists (b1 ++ b2), ((k, w) :: l'). rewrite <- app_assoc. split; [reflexivity|]. cbn [map snd fst]. split; [constructor; assumption|].
        split; [f_equal; exact EN|]. constructor; [|exact P2]. exists v. split; [|exact P1]. cbn [fst].
        exists (map (fun kv : str * item => (fst kv, fst (snd kv))) l1), (map (fun kv : str * item => (fst kv, fst (snd kv))) l2). rewrite EL, map_app.
        split; [reflexivity|]. rewrite map_map. cbn [fst]. exact Hn.
      - exfalso. apply (HN (None, t)); [left; reflexivity|reflexivity].
    Qed.

    Lemma fields_like_values (c : composite item) vs cmp : Forall2 (same (C := C)) (map fst (values c)) vs -> values cmp = vs ->
      (forall l l', c = Named l -> cmp = Named l' -> l = []) -> fields_like same (composite_map fst c) cmp.
    Proof.
      intros H E HN. right. split.
      - intros l l' E1 E2. destruct c as [l0|l0]; [|discriminate]. injection E1 as <-. rewrite (HN l0 l' eq_refl E2). reflexivity.
      - rewrite values_map, E. exact H.
    Qed.

    Lemma emits_fields (c : composite item) : Forall good (values c) -> forall fs out out', all_or_none fs ->
      encode_fields (source_fields (composite_map snd c)) fs out = (SOk, out') ->
      exists b vs cmp, out' = out ++ b /\ ENCS false (map snd fs) vs b /\ fields_shape (map fst fs) vs cmp /\ fields_like same (composite_map fst c) cmp.
    Proof.
      intros HG fs out out' AN H. unfold encode_fields in H.
      destruct (existsb named_field fs && existsb named_field (source_fields (composite_map snd c))) eqn:B.
      - apply andb_true_iff in B as [B1 B2]. destruct c as [l|l]; cbn [composite_map source_fields] in *.
        2:{ exfalso. clear -B2. rewrite map_map in B2. induction l; [discriminate|auto]. }
        rewrite map_map in H. cbn [fst snd] in H. cbn [values] in HG.
        assert (HN : forall f : field TId, In f fs -> fst f <> None).
        { destruct AN as [AN|AN]; [|exact AN]. exfalso. apply existsb_exists in B1 as (f & Hf & E). unfold named_field in E. rewrite (AN f Hf) in E. discriminate. }
        apply emits_by_name in H as (b & l' & -> & E & EN & HF); [|exact HG|exact HN].
        exists b, (map snd l'), (Named l'). split; [reflexivity|]. split; [exact E|]. split.
        + rewrite EN. constructor. intros ->. destruct fs; [discriminate B1|discriminate EN].
        + left. exists (map (fun kv => (fst kv, fst (snd kv))) l), l'. auto.
      - destruct (Nat.eqb_spec (length fs) (length (source_fields (composite_map snd c)))) as [E|]; [|discriminate].
        rewrite source_fields_snd, values_map, <- pe_snd in H.
        assert (LV : length fs = length (values c)). { rewrite E, <- (map_length snd (source_fields _)), source_fields_snd, values_map. apply map_length. }
        apply emits_in_order in H as (b & vs & -> & EE & HF); [|apply good_pe; exact HG|rewrite !map_length; congruence].
        apply pe_same in HF. pose proof (Forall2_length' _ _ _ HF) as L. rewrite map_length in L.
        destruct (shape_exists (map fst fs) vs) as [cmp Sh]; [rewrite map_length; congruence|].
        exists b, vs, cmp. split; [reflexivity|]. split; [exact EE|]. split; [exact Sh|].
        apply (fields_like_values c vs); [exact HF|eapply shape_values, Sh|]. intros l l' -> ->.
        inversion Sh as [kvs Hne E1 E2|]; subst. destruct l as [|[k it] l]; [reflexivity|]. exfalso.
        assert (B1 : existsb named_field fs = true).
        { destruct fs as [|[[n|] t] fs]; [destruct l'; [contradiction|discriminate]|reflexivity|destruct l'; discriminate]. }
        rewrite B1 in B. discriminate.
    Qed.

    Lemma emits_struct (c : composite item) x : Forall good (values c) -> forall t out out',
      encode_struct reg F (source_fields (composite_map snd c)) t out = (SOk, out') ->
      exists b w, out' = out ++ b /\ ENC false t w b /\ same (Val (DComposite (composite_map fst c)) x) w.
    Proof.
      intros HS t out out' H. unfold encode_struct in H. destruct (skip_through reg F t) as [t1|] eqn:SK; [|discriminate].
      apply skip_through_chain, chain_trans_wraps in SK.
      assert (G : (exists b w, out' = out ++ b /\ ENC false t1 w b /\ same (Val (DComposite (composite_map fst c)) x) w) ->
                  exists b w, out' = out ++ b /\ ENC false t w b /\ same (Val (DComposite (composite_map fst c)) x) w).
      { intros (b & w & -> & E & HP). destruct (chain_P _ _ _ _ _ (same_wrapc _) SK E HP) as (w' & E' & HP'). eauto. }
      apply G. clear G SK.
      assert (ONE : forall n e, source_fields (composite_map snd c) = [(n, e)] -> e t1 out = (SOk, out') ->
        exists b w, out' = out ++ b /\ ENC false t1 w b /\ same (Val (DComposite (composite_map fst c)) x) w).
      { intros n e E He. assert (V : map snd (values c) = [e]) by (rewrite <- values_map, <- source_fields_snd, E; reflexivity).
        destruct (values c) as [|it [|]] eqn:EV; try discriminate. cbn [map] in V. injection V as <-. inversion HS as [|? ? Hg]; subst.
        apply Hg in He as (b & w & -> & E1 & P1). exists b, w. split; [reflexivity|]. split; [exact E1|].
        eapply Same_unwrapped; [|exact P1]. rewrite values_map, EV. reflexivity. }
      assert (S1 : forall r, match source_fields (composite_map snd c) with [(_, e)] => e t1 out | _ => r end = (SOk, out') ->
        (exists b w, out' = out ++ b /\ ENC false t1 w b /\ same (Val (DComposite (composite_map fst c)) x) w) \/ r = (SOk, out')).
      { intros r Hr. destruct (source_fields (composite_map snd c)) as [|[n e] [|]]; [right; exact Hr| |right; exact Hr]. left. eapply ONE; [reflexivity|exact Hr]. }
      assert (S2 : forall r, match source_fields (composite_map snd c) with [(None, e)] => e t1 out | _ => r end = (SOk, out') ->
        (exists b w, out' = out ++ b /\ ENC false t1 w b /\ same (Val (DComposite (composite_map fst c)) x) w) \/ r = (SOk, out')).
      { intros r Hr. destruct (source_fields (composite_map snd c)) as [|[[n|] e] [|]]; try (right; exact Hr). left. eapply ONE; [reflexivity|exact Hr]. }
      destruct (reg t1) as [| |[fs|vs|t'|t' n|ts|p|t'|st o]] eqn:R; try discriminate;
        try (apply S1 in H as [H|H]; [exact H|discriminate]).
      - apply S2 in H as [H|H]; [exact H|]. apply emits_fields in H as (b & vs & cmp & -> & E & Sh & FL); [|exact HS|eapply (proj1 NU), R].
        eexists b, _. split; [reflexivity|]. split; [eapply E_composite; [exact R|discriminate|exact E|exact Sh]|]. apply Same_composite, FL.
      - apply S1 in H as [H|H]; [exact H|]. apply emits_fields in H as (b & vs & cmp & -> & E & Sh & FL); [|exact HS|].
        2:{ left. intros f Hf. apply in_map_iff in Hf as (t' & <- & _). reflexivity. }
        rewrite map_map in E. cbn [snd] in E. rewrite map_id in E.
        exists b, (Val (DComposite cmp) (ctxf t1)). split; [reflexivity|]. split; [|apply Same_composite, FL].
        assert (cmp = Unnamed vs) as ->.
        { inversion Sh as [kvs Hne E1 E2 E3|]; [|reflexivity]. exfalso. rewrite map_map in E1. cbn [fst] in E1. destruct kvs; [contradiction|]. destruct ts; discriminate. }
        eapply E_tuple; [exact R|discriminate|exact E].
    Qed.

    Lemma emits_do (c : composite item) x : Forall good (values c) -> N.of_nat (length (values c)) < 2 ^ 32 ->
      (forall bs, Forall2 is_bit (map fst (values c)) bs -> N.of_nat (length bs) <= mb) ->
      forall t out out', do_encode reg F c t out = (SOk, out') -> exists b w, out' = out ++ b /\ ENC false t w b /\ same (Val (DComposite (composite_map fst c)) x) w.
    Proof.
      intros HS HN HM t out out' H. unfold do_encode in H. rewrite clen_values in H.
      assert (S0 : match values c with [x] => snd x t out | _ => (SErr XWrongShape, out) end = (SOk, out') ->
        exists b w, out' = out ++ b /\ ENC false t w b /\ same (Val (DComposite (composite_map fst c)) x) w).
      { intro E. destruct (values c) as [|it [|]] eqn:EV; try discriminate. inversion HS as [|? ? He]; subst. apply He in E as (b & w & -> & E1 & P1).
        exists b, w. split; [reflexivity|]. split; [exact E1|]. eapply Same_unwrapped; [|exact P1]. rewrite values_map, EV. reflexivity. }
      pose proof (emits_struct c x HS t out out') as S1.
      assert (UL : forall vs, Forall2 same (map fst (values c)) vs -> same (Val (DComposite (composite_map fst c)) x) (Val (DComposite (Unnamed vs)) (ctxf t))).
      { intros vs HF. apply Same_composite. apply (fields_like_values c vs); [exact HF|reflexivity|discriminate]. }
      destruct (reg t) as [| |[fs|vs|t'|t' n|ts|p|t'|st o]] eqn:R; try discriminate; try (apply S0, H); try (apply S1, H).
      - rewrite <- pe_snd in H. apply (emits_all _ (good_pe _ HS)) in H as (b' & vs & -> & E & HF). apply pe_same in HF.
        pose proof (Forall2_length' _ _ _ HF) as L. rewrite map_length in *.
        exists (compact_encode (N.of_nat (length (values c)) mod 2 ^ 32) ++ b'), (Val (DComposite (Unnamed vs)) (ctxf t)).
        rewrite app_assoc. split; [reflexivity|]. split; [|apply UL, HF]. rewrite L in E, HN |- *. rewrite mod32 by exact HN.
        eapply E_sequence; [exact R|exact HN|apply compact_small32, HN|exact E].
      - destruct (N.eqb_spec (N.of_nat (length (values c))) n) as [En|]; [|discriminate].
        rewrite <- pe_snd in H. apply (emits_all _ (good_pe _ HS)) in H as (b' & vs & -> & E & HF). apply pe_same in HF.
        pose proof (Forall2_length' _ _ _ HF) as L. rewrite map_length in *.
        exists b', (Val (DComposite (Unnamed vs)) (ctxf t)). split; [reflexivity|]. split; [|apply UL, HF].
        rewrite L in E. eapply E_array; [exact R|congruence|exact E].
      - destruct (bits_of (map fst (values c))) as [b|] eqn:B; [|discriminate]. injection H as <-.
        apply bits_of_iff in B. pose proof (Forall2_length' _ _ _ B) as L. rewrite map_length in L.
        eexists _, _. split; [reflexivity|]. split; [apply bits_enc; [exact R|rewrite <- L; exact HN|apply HM, B]|].
        apply Same_as_bits. rewrite values_map. exact B.
    Qed.

    Lemma emits_composite (c : composite item) x : Forall good (values c) -> N.of_nat (length (values c)) < 2 ^ 32 ->
      (forall bs, Forall2 is_bit (map fst (values c)) bs -> N.of_nat (length bs) <= mb) ->
      emits (same (Val (DComposite (composite_map fst c)) x)) (encode_composite reg F c).
    Proof.
      intros HS HN HM t out out' H. pose proof (emits_do c x HS HN HM) as D. unfold encode_composite in H.
      remember (Val (DComposite (composite_map fst c)) x) as v eqn:Ev.
      destruct (do_encode reg F c t []) as [[|e|] tmp] eqn:E1; [|clear E1|discriminate].
      { injection H as <-. destruct (D _ _ _ E1) as (b & w & Eb & E). rewrite Eb. exists b, w. split; [reflexivity|exact E]. }
      destruct (find_single reg F t false) as [[t' d]|] eqn:FS; [|discriminate]. apply find_single_chain in FS.
      assert (G : forall tmp, (exists b w, tmp = [] ++ b /\ ENC false t' w b /\ same v w) -> (SOk, out ++ tmp) = (SOk, out') ->
        exists b w, out' = out ++ b /\ ENC false t w b /\ same v w).
      { intros tmp0 (b & w & -> & E & HP) [= <-]. destruct (chain_P _ _ _ _ _ (same_wrapc v) FS E HP) as (w' & E' & HP'). eauto. }
      destruct (if d then do_encode reg F c t' [] else (SErr e, [])) as [[|e'|] tmp'] eqn:E2; [|clear E2|discriminate].
      { destruct d; [|discriminate]. eapply G; [|exact H]. eapply D, E2. }
      destruct (values c) as [|it [|]] eqn:EV; try discriminate. destruct (snd it t' []) as [[| |] tmp''] eqn:E3; try discriminate.
      eapply G; [|exact H]. pose proof (Forall_inv HS) as He. unfold good in He. apply He in E3 as (b & w & -> & E & HP). exists b, w. split; [reflexivity|]. split; [exact E|].
      rewrite Ev. eapply Same_unwrapped; [|exact HP]. rewrite values_map, EV. reflexivity.
    Qed.

    Lemma emits_variant name (c : composite item) x : Forall good (values c) -> emits (same (Val (DVariant name (composite_map fst c)) x)) (encode_variant reg F name c).
    Proof.
      intros HS t out out' H. unfold encode_variant in H. destruct (skip_through reg F t) as [t1|] eqn:SK; [|discriminate].
      apply skip_through_chain, chain_trans_wraps in SK.
      destruct (reg t1) as [| |[fs|vs|t'|t' n|ts|p|t'|st o]] eqn:R; try discriminate.
      destruct (find _ vs) as [v|] eqn:FD; [|discriminate].
      apply emits_fields in H as (b & ws & cmp & -> & E & Sh & FL); [|exact HS|eapply (proj2 NU); [exact R|eapply find_some, FD]].
      apply find_name_split in FD as (l1 & l2 & -> & <- & _). destruct (proj1 OK _ _ R) as [ND HB].
      assert (E' : ENC false t1 (Val (DVariant (vi_name v) cmp) (ctxf t1)) (vi_index v :: b)).
      { destruct v as [vn vi vf]. cbn [vi_name vi_index vi_fields] in *. eapply E_variant; [exact R| | |exact E|exact Sh].
        - rewrite map_app in ND. cbn [map vi_index] in ND. apply NoDup_remove_2 in ND. intro Hi. apply ND, in_or_app. left. exact Hi.
        - rewrite Forall_forall in HB. apply (HB (VInfo vn vi vf)). apply in_or_app. right. left. reflexivity. }
      destruct (chain_P _ _ _ _ _ (same_wrapc (Val (DVariant (vi_name v) (composite_map fst c)) x)) SK E' (Same_variant _ _ _ _ _ FL)) as (w'' & E'' & HP).
      exists (vi_index v :: b), w''. rewrite <- app_assoc. split; [reflexivity|]. split; [exact E''|exact HP].
    Qed.

    Lemma composite_map_fst {A B} (f : A -> B) (c : composite A) : composite_map fst (composite_map (fun x => (x, f x)) c) = c.
    Proof. destruct c as [l|l]; cbn [composite_map]; rewrite map_map; cbn [fst snd]; [|now rewrite map_id]. f_equal. rewrite <- (map_id l) at 2. apply map_ext. intros []; reflexivity. Qed.

    Theorem encode_same (v : value T) : small mb v -> emits (same v) (encode reg X F v).
    Proof.
      induction v as [d ctx IH] using value_ind'. intro HS. inversion HS as [d' ctx' Hd Hc]; subst.
      assert (HI : forall c, values c = children d -> Forall good (values (composite_map (fun x => (x, encode reg X F x)) c))).
      { intros c E. rewrite values_map, E. apply Forall_map. rewrite Forall_forall in IH, Hc |- *. intros x Hx. unfold good. cbn [fst snd]. apply IH; [exact Hx|apply Hc, Hx]. }
      destruct d as [c|n c|b|p]; cbn [encode].
      - cbn [node_small] in Hd. destruct Hd as [HN HM]. rewrite <- (composite_map_fst (encode reg X F) c) at 1. apply emits_composite.
        + apply HI. reflexivity.
        + rewrite values_map, map_length. exact HN.
        + intros bs Hbs. rewrite values_map, map_map in Hbs. cbn [fst] in Hbs. rewrite map_id in Hbs. apply HM, Hbs.
      - rewrite <- (composite_map_fst (encode reg X F) c) at 1. apply emits_variant, HI. reflexivity.
      - apply emits_leaf; [apply same_wrapc|]. intros t ty bs R E. destruct ty; try discriminate. injection E as <-. exists (Val (DBits b) (ctxf t)). cbn in Hd.
        split; [apply bits_enc; [exact R|apply Hd|apply Hd]|constructor].
      - cbn in Hd. apply emits_primitive; apply Hd.
    Qed.

    Lemma as_fields_same (c : composite (value T)) : Forall (small mb) (values c) -> forall fs out out', all_or_none fs ->
      encode_composite_as_fields reg X F c fs out = (SOk, out') ->
      exists b vs cmp, out' = out ++ b /\ ENCS false (map snd fs) vs b /\ fields_shape (map fst fs) vs cmp /\ fields_like same c cmp.
    Proof.
      intros HS fs out out' AN H. unfold encode_composite_as_fields in H.
      assert (E : composite_map (encode reg X F) c = composite_map snd (composite_map (fun x => (x, encode reg X F x)) c)) by (destruct c as [l|l]; cbn [composite_map]; rewrite map_map; reflexivity).
      rewrite E in H. apply emits_fields in H; [|clear H|exact AN].
      - rewrite composite_map_fst in H. exact H.
      - rewrite values_map. apply Forall_map. rewrite Forall_forall in *. intros x Hx. apply encode_same, HS, Hx.
    Qed.
  End Items.
End SameData.
