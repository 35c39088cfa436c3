(** * EncodeLinear: what was decoded is encoded with one call per node.

    The development of EncodeComplete.v for the counting encoder of EncodeCost.v. *)
From Verif Require Import Base Value ValueFacts Registry Spec_Scale Scale ScaleFacts BitsFacts Decode DecodeFacts Encode EncodeFacts Spec_Encode EncodeSound EncodeComplete EncodeCost Spec_Cost.
Open Scope N_scope.

Section Complete.
  Context {TId : Type} (reg : TId -> resolution TId) (X : ext).
  Context {C : Type} (ctxf : TId -> C).
  Local Notation mb := (x_maxbits X).
  Local Notation ENC := (enc reg mb 32 ctxf PU256 true).
  Local Notation ENCS := (encs reg mb 32 ctxf PU256 true).
  Context (RT : rt_ok reg X) (NL : no_nested_lists reg).

  (** With enough fuel the encoder appends exactly [bs]. *)
  Definition yields (v : value C) (t : TId) (bs : bytes) : Prop :=
    exists F0, forall F, (F0 <= F)%nat -> forall out, encode_c reg X F v t out = ((SOk, out ++ bs), nodes v).

  Local Notation nontransparent := (nontransparent reg).
  Local Notation peelable := (peelable reg).

  Local Notation yl := (fun t v b => yields v t b).

  Lemma in_order_yields ts vs bs : parts yl ts vs bs ->
    exists F0, forall F, (F0 <= F)%nat -> forall out, encode_in_order_c (map (encode_c reg X F) vs) ts out = ((SOk, out ++ bs), total (map nodes vs)).
  Proof.
    induction 1 as [|t ts v vs b bs [F1 H1] _ [F2 H2]].
    - exists 0%nat. intros F _ out. cbn. rewrite app_nil_r. reflexivity.
    - exists (Nat.max F1 F2). intros F HF out. cbn [map encode_in_order_c]. rewrite H1 by lia. unfold andthen_c. cbn [fst snd]. rewrite H2 by lia. unfold plus_calls. cbn [fst snd total map].
      rewrite app_assoc. reflexivity.
  Qed.

  Lemma all_yields t vs bs : parts yl (repeat t (length vs)) vs bs ->
    exists F0, forall F, (F0 <= F)%nat -> forall out, encode_all_c (map (encode_c reg X F) vs) t out = ((SOk, out ++ bs), total (map nodes vs)).
  Proof.
    remember (repeat t (length vs)) as ts eqn:E. intro H. revert E. induction H as [|t' ts v vs b bs [F1 H1] _ IH]; intro E.
    - exists 0%nat. intros F _ out. cbn. rewrite app_nil_r. reflexivity.
    - cbn [length repeat] in E. injection E as -> E. destruct (IH E) as [F2 H2].
      exists (Nat.max F1 F2). intros F HF out. cbn [map encode_all_c]. rewrite H1 by lia. unfold andthen_c. cbn [fst snd]. rewrite H2 by lia. unfold plus_calls. cbn [fst snd total map].
      rewrite app_assoc. reflexivity.
  Qed.

  Lemma lookup_last_none {A} name (src : list (option str * A)) (f : A -> encoder_c (TId:=TId)) :
    ~ In name (map key_of src) -> lookup_last_c name (map (fun x => (fst x, f (snd x))) src) = None.
  Proof.
    induction src as [|[n a] src IH]; cbn [map lookup_last_c fst snd]; intro H; [reflexivity|].
    rewrite IH by (intro; apply H; right; assumption). cbn [key_of fst].
    destruct (str_eqb _ name) eqn:E; [|reflexivity]. exfalso. apply H. left. apply str_eqb_eq. exact E.
  Qed.
  Lemma lookup_last_nodup {A} (src : list (option str * A)) (f : A -> encoder_c (TId:=TId)) : NoDup (map key_of src) -> forall x, In x src ->
    lookup_last_c (key_of x) (map (fun x => (fst x, f (snd x))) src) = Some (f (snd x)).
  Proof.
    induction src as [|y src IH]; intros ND x Hx; [destruct Hx|]. cbn [map] in ND. inversion ND as [|? ? Hn ND']; subst.
    cbn [map lookup_last_c]. destruct Hx as [->|Hx].
    - rewrite lookup_last_none by exact Hn. change (key_of (fst x, f (snd x))) with (key_of x). rewrite str_eqb_refl. reflexivity.
    - rewrite (IH ND' x Hx). reflexivity.
  Qed.

  Lemma by_name_yields kvs fs bs : NoDup (map fst fs) -> map fst fs = map (fun kv => Some (fst kv)) kvs ->
    parts yl (map snd fs) (map snd kvs) bs ->
    exists F0, forall F, (F0 <= F)%nat -> forall out,
      encode_by_name_c (source_fields (composite_map (encode_c reg X F) (Named kvs))) fs out = ((SOk, out ++ bs), total (map nodes (map snd kvs))).
  Proof.
    intros ND EN HP.
    assert (NDk : NoDup (map key_of (map (fun kv : str * value C => (Some (fst kv), snd kv)) kvs))).
    { rewrite map_map. cbn [key_of fst]. rewrite EN in ND. clear -ND. change (NoDup (map fst kvs)).
      rewrite <- (map_map fst Some) in ND. apply NoDup_map_inv in ND. exact ND. }
    assert (SRC : forall F, source_fields (composite_map (encode_c reg X F) (Named kvs)) =
                  map (fun x => (fst x, encode_c reg X F (snd x))) (map (fun kv : str * value C => (Some (fst kv), snd kv)) kvs)).
    { intro F. cbn [composite_map source_fields]. rewrite !map_map. reflexivity. }
    set (src := map (fun kv : str * value C => (Some (fst kv), snd kv)) kvs) in *.
    assert (G : forall fs' kvs', map fst fs' = map (fun kv => Some (fst kv)) kvs' -> (forall kv, In kv kvs' -> In kv kvs) ->
       forall bs', parts yl (map snd fs') (map snd kvs') bs' ->
       exists F0, forall F, (F0 <= F)%nat -> forall out, encode_by_name_c (map (fun x => (fst x, encode_c reg X F (snd x))) src) fs' out = ((SOk, out ++ bs'), total (map nodes (map snd kvs')))).
    { induction fs' as [|[n t] fs' IH]; intros [|[k v] kvs'] E HIn bs' HP'; try discriminate; cbn [map fst snd] in *.
      - inversion HP'; subst. exists 0%nat. intros F _ out. cbn. rewrite app_nil_r. reflexivity.
      - injection E as -> E. inversion HP' as [|? ? ? ? b bs'' [F1 H1] HP'']; subst.
        destruct (IH kvs' E (fun kv H => HIn kv (or_intror H)) bs'' HP'') as [F2 H2].
        exists (Nat.max F1 F2). intros F HF out. cbn [encode_by_name_c].
        assert (IS : In (Some k, v) src).
        { unfold src. apply in_map_iff. exists (k, v). split; [reflexivity|]. apply HIn. left. reflexivity. }
        pose proof (lookup_last_nodup src (encode_c reg X F) NDk (Some k, v) IS) as LK. unfold key_of in LK |- *. cbn [fst snd] in LK |- *.
        match goal with |- match ?l with _ => _ end = _ => replace l with (Some (encode_c reg X F v)) by (symmetry; exact LK) end.
        rewrite H1 by lia. unfold andthen_c. cbn [fst snd]. rewrite H2 by lia. unfold plus_calls. cbn [fst snd total map]. rewrite app_assoc. reflexivity. }
    destruct (G fs kvs EN (fun kv H => H) bs HP) as [F0 H]. exists F0. intros F HF out. rewrite SRC. apply H. exact HF.
  Qed.

  Lemma fields_yields fs vs cmp bs : names_ok fs -> parts yl (map snd fs) vs bs -> fields_shape (map fst fs) vs cmp ->
    exists F0, forall F, (F0 <= F)%nat -> forall out,
      encode_fields_c (source_fields (composite_map (encode_c reg X F) cmp)) fs out = ((SOk, out ++ bs), total (map nodes (values cmp))).
  Proof.
    intros NO HP Sh. inversion Sh as [kvs Hne E1 E2 E3|names vs' HL Hn E1 E2 E3]; subst.
    - assert (ND : NoDup (map fst fs)).
      { apply NO. rewrite <- E1. rewrite in_map_iff. intros (kv & E & _). discriminate. }
      destruct (by_name_yields kvs fs bs ND (eq_sym E1) HP) as [F0 H]. exists F0. intros F HF out. unfold encode_fields_c.
      assert (N1 : existsb named_field fs = true).
      { destruct fs as [|[[n|] t] fs]; cbn [map fst] in E1; destruct kvs; try discriminate; try contradiction. reflexivity. }
      specialize (H F HF out).
      assert (N2 : existsb named_field (source_fields (composite_map (encode_c reg X F) (Named kvs))) = true).
      { destruct kvs; [contradiction|reflexivity]. }
      match goal with |- (if ?a && ?b then _ else _) = _ => replace a with true by (symmetry; exact N1); replace b with true by (symmetry; exact N2) end.
      exact H.
    - destruct (in_order_yields _ _ _ HP) as [F0 H]. exists F0. intros F HF out. unfold encode_fields_c.
      cbn [composite_map source_fields]. rewrite map_map. rewrite <- (map_map (encode_c reg X F) (fun v => (None, v))).
      rewrite existsb_named_none, andb_false_r. rewrite !map_length, <- HL, map_length, Nat.eqb_refl.
      rewrite map_map. cbn [snd]. rewrite map_id. apply H. exact HF.
  Qed.

  Lemma nodes_composite (cmp : composite (value C)) ctx : nodes (Val (DComposite cmp) ctx) = 1 + total (map nodes (values cmp)).
  Proof. cbn [nodes]. now rewrite values_cmap. Qed.
  Lemma nodes_variant n (cmp : composite (value C)) ctx : nodes (Val (DVariant n cmp) ctx) = 1 + total (map nodes (values cmp)).
  Proof. cbn [nodes]. now rewrite values_cmap. Qed.

  (** If the first attempt succeeds the composite is encoded. *)
  Lemma composite_yields cmp t ctx bs :
    (exists F0, forall F, (F0 <= F)%nat -> do_encode_c reg F (composite_map (fun x => (x, encode_c reg X F x)) cmp) t [] = ((SOk, bs), total (map nodes (values cmp)))) ->
    yields (Val (DComposite cmp) ctx) t bs.
  Proof.
    intros [F0 H]. exists F0. intros F HF out. cbn [encode_c]. unfold encode_composite_c. rewrite H by exact HF. rewrite nodes_composite. reflexivity.
  Qed.

  (** A struct or tuple that is not a single-unnamed-field wrapper. *)
  Lemma struct_yields t fs cmp vs bs ctx : reg t = ResTy (TComposite fs) -> nontransparent t -> parts yl (map snd fs) vs bs ->
    fields_shape (map fst fs) vs cmp -> yields (Val (DComposite cmp) ctx) t bs.
  Proof.
    intros R NT HP Sh. apply composite_yields. destruct (fields_yields fs vs cmp bs (rt_fields reg X RT t fs R) HP Sh) as [F0 H].
    exists (S F0). intros F HF. unfold do_encode_c. rewrite R. unfold encode_struct_c.
    rewrite (skip_nontransparent reg ctxf) by (auto; lia). rewrite R, composite_map_snd. specialize (H F ltac:(lia) []).
    match goal with |- match ?s with _ => _ end = _ => change (encode_fields_c s fs [] = ((SOk, [] ++ bs), total (map nodes (values cmp)))) in H; destruct s as [|[[n|] e] [|]] eqn:S; try exact H end.
    exfalso. inversion Sh as [kvs Hne E1 E2 E3|names vs' HL Hn E1 E2 E3]; subst.
    - destruct kvs; [contradiction|]. cbn in S. discriminate.
    - destruct vs as [|x [|]]; try discriminate. rewrite map_length in HL. destruct fs as [|[n t'] [|]]; try discriminate.
      cbn [map fst In] in Hn. destruct Hn as [Hn|[Hn|[]]]; [discriminate|]. subst n. apply (NT t'), Tr_struct, R.
  Qed.
  Lemma tuple_yields t ts vs bs ctx : reg t = ResTy (TTuple ts) -> nontransparent t -> parts yl ts vs bs ->
    yields (Val (DComposite (Unnamed vs)) ctx) t bs.
  Proof.
    intros R NT HP. apply composite_yields. pose proof (parts_length _ _ _ _ HP) as L. destruct (in_order_yields _ _ _ HP) as [F0 H].
    exists (S F0). intros F HF. unfold do_encode_c. rewrite R. unfold encode_struct_c.
    rewrite (skip_nontransparent reg ctxf) by (auto; lia). rewrite R, composite_map_snd. specialize (H F ltac:(lia) []).
    cbn [composite_map source_fields]. rewrite map_map.
    assert (G : encode_fields_c (map (fun x => (None, encode_c reg X F x)) vs) (map (fun t => (None, t)) ts) [] = ((SOk, [] ++ bs), total (map nodes vs))).
    { unfold encode_fields_c. rewrite existsb_named_none. cbn [andb]. rewrite !map_length, L, Nat.eqb_refl, !map_map. cbn [snd]. rewrite map_id. exact H. }
    destruct vs as [|x [|y vs]]; cbn [map] in *; try exact G. destruct ts as [|t' [|]]; try discriminate.
    exfalso. apply (NT t'), Tr_tuple, R.
  Qed.

  (** A wrapper [t] around [t'], whose innermost type is [u]. *)
  Lemma wrapper_yields t u x ctx bs : (exists F0, forall F, (F0 <= F)%nat -> skip_through reg F t = Some u) ->
    (exists t', transparent reg t t') -> (exists ty, reg u = ResTy ty) -> yields x u bs -> yields (Val (DComposite (Unnamed [x])) ctx) t bs.
  Proof.
    intros [F1 HS] [t' Tr] Hu [F2 HX]. apply composite_yields. exists (Nat.max F1 F2). intros F HF. unfold do_encode_c.
    assert (G : encode_struct_c reg F (source_fields (composite_map snd (composite_map (fun x => (x, encode_c reg X F x)) (Unnamed [x])))) t [] = ((SOk, bs), nodes x)).
    { unfold encode_struct_c. rewrite HS by lia. cbn [composite_map map source_fields snd].
      assert (E : encode_c reg X F x u [] = ((SOk, bs), nodes x)) by (rewrite HX by lia; reflexivity).
      destruct Hu as [ty R]. rewrite R. destruct ty as [fs|vs|a|a n|ts|p|a|st o]; exact E. }
    inversion Tr as [? ? R|? ? R]; subst; rewrite R; (etransitivity; [exact G|]); cbn [values map total]; rewrite N.add_0_r; reflexivity.
  Qed.

  (** One more layer around a value does not matter at types that cannot take the layer themselves. *)
  Lemma peel_yields u x ctx bs : nontransparent u -> peelable u -> yields x u bs -> yields (Val (DComposite (Unnamed [x])) ctx) u bs.
  Proof.
    intros NT PL [F0 HX]. exists (S F0). intros F HF out.
    assert (E : encode_c reg X F x u [] = ((SOk, bs), nodes x)) by (rewrite HX by lia; reflexivity).
    destruct F as [|F]; [lia|].
    assert (FS : (exists t' n, reg u = ResTy (TArray t' n)) \/ (exists st o, reg u = ResTy (TBitSeq st o)) \/ reg u = ResErr -> find_single reg (S F) u false = Some (u, false)).
    { intros [(t' & n & R)|[(st & o & R)|R]]; cbn [find_single]; rewrite R; try reflexivity.
      destruct (N.eqb_spec n 1) as [->|]; [|reflexivity]. exfalso. apply (proj2 (PL t')). exact R. }
    assert (DONE : forall r, do_encode_c reg (S F) (Unnamed [(x, encode_c reg X (S F) x)]) u [] = ((SErr r, []), 0) -> find_single reg (S F) u false = Some (u, false) ->
      encode_composite_c reg (S F) (Unnamed [(x, encode_c reg X (S F) x)]) u out = ((SOk, out ++ bs), nodes x)).
    { intros r D FSu. unfold encode_composite_c. rewrite D, FSu. unfold free, plus_calls. cbn [values fst snd]. rewrite E. reflexivity. }
    assert (ONE : do_encode_c reg (S F) (Unnamed [(x, encode_c reg X (S F) x)]) u [] = ((SOk, bs), nodes x) ->
      encode_composite_c reg (S F) (Unnamed [(x, encode_c reg X (S F) x)]) u out = ((SOk, out ++ bs), nodes x)).
    { intros D. unfold encode_composite_c. rewrite D. reflexivity. }
    assert (NX : forall ctx, nodes (Val (DComposite (Unnamed [x])) ctx) = 1 + nodes x) by (intro; cbn [nodes composite_map map values total]; lia).
    rewrite NX. change (plus_calls 1 (encode_composite_c reg (S F) (Unnamed [(x, encode_c reg X (S F) x)]) u out) = ((SOk, out ++ bs), 1 + nodes x)).
    enough (G : encode_composite_c reg (S F) (Unnamed [(x, encode_c reg X (S F) x)]) u out = ((SOk, out ++ bs), nodes x)) by (rewrite G; reflexivity).
    destruct (reg u) as [| |[fs|vs|a|a n|ts|p|a|st o]] eqn:R.
    - apply (DONE XTypeResolving); [unfold do_encode_c; rewrite R; reflexivity|apply FS; auto].
    - apply ONE. unfold do_encode_c. rewrite R. cbn [values snd]. rewrite E. reflexivity.
    - apply ONE. unfold do_encode_c. rewrite R. unfold encode_struct_c. rewrite (skip_nontransparent reg ctxf) by (auto; lia). rewrite R.
      cbn [composite_map map source_fields snd]. rewrite E. reflexivity.
    - apply ONE. unfold do_encode_c. rewrite R. cbn [values snd]. rewrite E. reflexivity.
    - exfalso. apply (proj1 (PL a)). exact R.
    - destruct (N.eqb_spec n 1) as [->|Hn]; [exfalso; apply (proj2 (PL a)); exact R|].
      apply (DONE XWrongLength); [|apply FS; eauto]. unfold do_encode_c. rewrite R. cbn [clen length].
      destruct (N.eqb_spec (N.of_nat 1) n) as [En|]; [exfalso; apply Hn; rewrite <- En; reflexivity|]. reflexivity.
    - apply ONE. unfold do_encode_c. rewrite R. unfold encode_struct_c. rewrite (skip_nontransparent reg ctxf) by (auto; lia). rewrite R.
      cbn [composite_map map source_fields snd]. rewrite E. reflexivity.
    - apply ONE. unfold do_encode_c. rewrite R. cbn [values snd]. rewrite E. reflexivity.
    - apply ONE. unfold do_encode_c. rewrite R. cbn [values snd]. rewrite E. reflexivity.
    - apply (DONE XBadBit); [|apply FS; eauto]. unfold do_encode_c. rewrite R. cbn [values map fst bits_of].
      destruct (bit_of x) as [b|] eqn:B; [|reflexivity]. exfalso.
      destruct x as [[c|n c|l|p] cx]; try discriminate. cbn [encode_c] in E.
      destruct p; try discriminate; cbn [encode_primitive] in E; unfold encode_bool, encode_leaf, encode_number in E;
        cbn [find_single] in E; rewrite R in E; rewrite R in E; unfold free, plus_calls in E; cbn [fst snd] in E; discriminate.
  Qed.

  (** What is proved by induction on the encoding. *)
  Definition good (c : bool) (t : TId) (v : value C) (bs : bytes) : Prop :=
    if c then forall T0 t0, reg T0 = ResTy (TCompact t0) -> chain (wraps1 reg) t0 t -> yields v T0 bs
    else yields v t bs /\
         exists u, (exists ty, reg u = ResTy ty) /\ nontransparent u /\ chain (transparent reg) t u /\
           (exists F0, forall F, (F0 <= F)%nat -> skip_through reg F t = Some u) /\ (peelable u -> yields v u bs).

  Lemma good_plain t v bs : (exists ty, reg t = ResTy ty) -> nontransparent t -> yields v t bs -> good false t v bs.
  Proof.
    intros Ht NT Y. split; [exact Y|]. exists t. split; [exact Ht|]. split; [exact NT|]. split; [constructor|]. split; [|auto].
    exists 1%nat. intros F HF. apply (skip_nontransparent reg ctxf); assumption.
  Qed.

  Lemma good_wrapper t t' x ctx bs : transparent reg t t' -> good false t' x bs -> good false t (Val (DComposite (Unnamed [x])) ctx) bs.
  Proof.
    intros Tr [Y (u & Hu & NT & CH & [F0 SK] & PY)].
    assert (SK' : exists F0, forall F, (F0 <= F)%nat -> skip_through reg F t = Some u).
    { exists (S F0). intros [|F] HF; [lia|]. rewrite (skip_step reg F t t' Tr). apply SK. lia. }
    assert (YU : yields x u bs).
    { inversion CH as [|? t'' ? Tr' CH']; subst; [exact Y|]. apply PY. intro e. exact (NL _ _ _ _ e Tr Tr' CH'). }
    split; [eapply wrapper_yields; eauto|].
    exists u. split; [exact Hu|]. split; [exact NT|]. split; [eapply Ch_step; eassumption|]. split; [exact SK'|].
    intro PL. apply peel_yields; auto.
  Qed.

  Lemma compact_good cmp T0 t0 x ctx bs : reg T0 = ResTy (TCompact t0) -> values cmp = [x] -> yields x T0 bs ->
    yields (Val (DComposite cmp) ctx) T0 bs.
  Proof.
    intros R E [F0 H]. apply composite_yields. exists F0. intros F HF. unfold do_encode_c. rewrite R, values_map, E. cbn [map snd].
    rewrite H by exact HF. cbn [total app]. rewrite N.add_0_r. reflexivity.
  Qed.

  (** Leaves: one call, which is what EncodeComplete.v says about it. *)
  Lemma leaf_counts d ctx t bs : match d with DBits _ | DPrim _ => True | _ => False end ->
    EncodeComplete.yields reg X (Val d ctx) t bs -> yields (Val d ctx) t bs.
  Proof.
    intros Hd [F0 H]. exists F0. intros F HF out. specialize (H F HF out).
    destruct d; try contradiction; cbn [encode] in H; cbn [encode_c nodes total]; rewrite H; reflexivity.
  Qed.

  Lemma parts_yl ts vs bs : parts (good false) ts vs bs -> parts yl ts vs bs.
  Proof. apply parts_impl. intros t v b [Y _]. exact Y. Qed.

  Lemma complete_mut : (forall c t v bs, ENC c t v bs -> good c t v bs) /\ (forall c ts vs bs, ENCS c ts vs bs -> parts (good c) ts vs bs).
  Proof.
    apply enc_encs_ind.
    - intros t p x bs R HP. apply good_plain; [eauto|eapply nontransp_other; [exact R|exact I]|]. apply leaf_counts; [exact I|]. eapply (EncodeComplete.prim_yields reg X ctxf RT); eauto.
    - intros t w n bs R Hn HC T0 t0 R0 CH. apply leaf_counts; [exact I|].
      destruct (find_wraps1 reg ctxf _ _ _ CH R) as [F0 HF0].
      exists (S F0). intros [|F] HF out; [lia|]. cbn [encode encode_primitive]. unfold encode_number.
      replace (find_single reg (S F) T0 false) with (Some (T0, false)) by (cbn [find_single]; rewrite R0; reflexivity). rewrite R0.
      destruct (HF0 (S F) ltac:(lia) false) as [d ->]. rewrite R, (lt_in_unsigned w n Hn), N2Z.id, (compact_enc_fun _ _ HC). reflexivity.
    - intros c t t' v bs R _ IH. cbn [good] in IH. destruct c.
      + intros T0 t0 R0 CH. exfalso. eapply (rt_compact reg X RT); eassumption.
      + apply good_plain; [eauto|eapply nontransp_other; [exact R|exact I]|]. eapply IH; [exact R|constructor].
    - intros c t fs vs cmp bs R HC _ IH Sh. destruct c.
      + intros T0 t0 R0 CH. specialize (HC eq_refl). destruct fs as [|[n t'] [|]]; try discriminate. cbn [map snd fst] in *.
        inversion IH as [|? ? x ? b bs' Hx Hnil]; subst. inversion Hnil; subst. rewrite app_nil_r.
        eapply compact_good; [exact R0| |eapply Hx; [exact R0|]].
        * inversion Sh as [kvs Hne E1 E2 E3|]; subst; [reflexivity|reflexivity].
        * eapply chain_snoc; [exact CH|]. eapply W_struct; exact R.
      + destruct (single_transparent_dec reg t fs R) as [(t' & -> & Tr)|NT].
        * cbn [map snd fst] in *. inversion IH as [|? ? x ? b bs' Hx Hnil]; subst. inversion Hnil; subst. rewrite app_nil_r.
          inversion Sh as [kvs Hne E1 E2 E3|names vs' HL Hn E1 E2 E3]; subst.
          -- destruct kvs as [|? [|]]; discriminate.
          -- eapply good_wrapper; eassumption.
        * apply good_plain; [eauto|exact NT|]. eapply struct_yields; [exact R|exact NT|apply parts_yl; exact IH|exact Sh].
    - intros c t ts vs bs R HC _ IH. destruct c.
      + intros T0 t0 R0 CH. specialize (HC eq_refl). destruct ts as [|t' [|]]; try discriminate.
        inversion IH as [|? ? x ? b bs' Hx Hnil]; subst. inversion Hnil; subst. rewrite app_nil_r.
        eapply compact_good; [exact R0|reflexivity|eapply Hx; [exact R0|]]. eapply chain_snoc; [exact CH|]. apply W_tuple; exact R.
      + assert (D : (exists t', ts = [t']) \/ nontransparent t).
        { destruct ts as [|t' [|]]; try (right; intros w Hw; inversion Hw as [? ? R'|? ? R']; rewrite R in R'; discriminate). left; eauto. }
        destruct D as [[t' ->]|NT].
        * inversion IH as [|? ? x ? b bs' Hx Hnil]; subst. inversion Hnil; subst. rewrite app_nil_r. eapply good_wrapper; [apply Tr_tuple; exact R|exact Hx].
        * apply good_plain; [eauto|exact NT|]. eapply tuple_yields; [exact R|exact NT|apply parts_yl; exact IH].
    - intros t l1 name idx fs l2 vs cmp bs R Hn Hi _ IH Sh.
      assert (NT : nontransparent t) by (eapply nontransp_other; [exact R|exact I]). apply good_plain; [eauto|exact NT|].
      destruct (rt_variants reg X RT t _ R) as [ND NO]. rewrite Forall_forall in NO.
      specialize (NO (VInfo name idx fs) ltac:(apply in_or_app; right; left; reflexivity)). cbn [vi_fields] in NO.
      destruct (fields_yields fs vs cmp bs NO (parts_yl _ _ _ IH) Sh) as [F0 H]. exists (S F0). intros F HF out. cbn [encode_c]. unfold encode_variant_c.
      rewrite (skip_nontransparent reg ctxf) by (auto; lia). rewrite R.
      assert (FD : find (fun u => str_eqb (vi_name u) name) (l1 ++ VInfo name idx fs :: l2) = Some (VInfo name idx fs)).
      { apply (find_name_app l1 l2 (VInfo name idx fs)). rewrite map_app in ND. cbn [map] in ND. apply NoDup_remove_2 in ND.
        intro Hin. apply ND, in_or_app. left. exact Hin. }
      rewrite FD, composite_map_snd. cbn [vi_fields vi_index]. rewrite H by lia. rewrite <- app_assoc, nodes_variant. reflexivity.
    - intros t t' vs pre bs R HL HC _ IH. apply good_plain; [eauto|eapply nontransp_other; [exact R|exact I]|].
      destruct (all_yields _ _ _ (parts_yl _ _ _ IH)) as [F0 H]. apply composite_yields. exists F0. intros F HF. unfold do_encode_c. rewrite R.
      rewrite clen_values, values_map, map_length, map_map. cbn [values snd]. rewrite mod32 by exact HL.
      rewrite H by exact HF. cbn [app]. rewrite (compact_enc_fun _ _ HC). reflexivity.
    - intros t t' n vs bs R HL _ IH. apply good_plain; [eauto|eapply nontransp_other; [exact R|exact I]|].
      destruct (all_yields _ _ _ (parts_yl _ _ _ IH)) as [F0 H]. apply composite_yields. exists F0. intros F HF. unfold do_encode_c. rewrite R.
      rewrite clen_values, values_map, map_length, map_map. cbn [values snd]. rewrite HL, N.eqb_refl. rewrite H by exact HF. reflexivity.
    - intros t st o b pre bs R Hl Hm HC HP. apply good_plain; [eauto|eapply nontransp_other; [exact R|exact I]|].
      apply leaf_counts; [exact I|]. eapply (EncodeComplete.leaf_yields reg X ctxf); [exact R|exact I| |reflexivity]. cbn beta iota. unfold encode_bits. rewrite mod32 by exact Hl.
      rewrite <- (compact_enc_fun _ _ HC), <- (payload_strict_fun _ _ _ _ HP). reflexivity.
    - intro c. constructor.
    - intros c t ts v vs b bs _ H1 _ H2. constructor; assumption.
  Qed.

  Theorem encode_linear t v bs : ENC false t v bs -> yields v t bs.
  Proof. intro H. apply (proj1 complete_mut) in H. apply H. Qed.
End Complete.
