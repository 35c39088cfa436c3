(** * EncodeReorder: rearranged values encode like the values they come from (C110). *)
From Coq Require Import Permutation.
From Verif Require Import Base Value ValueFacts Registry Spec_Scale Scale ScaleFacts BitsFacts Decode DecodeFacts Encode EncodeFacts Spec_Encode EncodeSound EncodeNested EncodeComplete EncodeMore
  Spec_Rearranged.
Open Scope N_scope.

Lemma fr_values {A B} (R : A -> B -> Prop) one c1 c2 : fields_rearranged R one c1 c2 -> exists l, Permutation (values c1) l /\ Forall2 R l (values c2).
Proof.
  intros [l l' m P F|l m F|l m _ F]; cbn [values].
  - exists (map snd l'). split; [apply Permutation_map, P|]. clear P. induction F as [|a b l' m [_ H] _ IH]; cbn [map]; constructor; assumption.
  - exists l. auto.
  - exists (map snd l). auto.
Qed.
Lemma forall2_length {A B} (R : A -> B -> Prop) l m : Forall2 R l m -> length l = length m.
Proof. induction 1; cbn; congruence. Qed.
Lemma fr_length {A B} (R : A -> B -> Prop) one c1 c2 : fields_rearranged R one c1 c2 -> length (values c1) = length (values c2).
Proof. intro H. apply fr_values in H as (l & P & F). rewrite (Permutation_length P). apply forall2_length in F. exact F. Qed.
Lemma fr_one {A B} (R : A -> B -> Prop) one c1 c2 x : fields_rearranged R one c1 c2 -> values c1 = [x] -> exists y, values c2 = [y] /\ R x y.
Proof.
  intros H E. apply fr_values in H as (l & P & F). rewrite E in P. apply Permutation_length_1_inv in P. subst l. inversion F as [|? y ? m Hxy F']; subst. inversion F'; subst.
  exists y. auto.
Qed.
Lemma fr_unnamed {A B} (R : A -> B -> Prop) one l c2 : fields_rearranged R one (Unnamed l) c2 -> exists m, c2 = Unnamed m /\ Forall2 R l m.
Proof. intro H. inversion H; subst. eauto. Qed.

Lemma wide_rearranged {S T} (v : value S) : wide v -> forall w : value T, rearranged v w -> wide w.
Proof.
  induction 1 as [c ctx L|c ctx x V _ IH]; intros w RA; inversion RA as [| | |k1 k2 c1 c2 FR|]; subst.
  - apply Wi_many. rewrite <- (fr_length _ _ _ _ FR). exact L.
  - destruct (fr_one _ _ _ _ _ FR V) as (y & E & Rxy). eapply Wi_one; [exact E|apply IH, Rxy].
Qed.

Section Reorder.
  Context {TId : Type} (reg : TId -> resolution TId) (X : ext).
  Context {C : Type} (ctxf : TId -> C) {D : Type} (ctxd : TId -> D).
  Local Notation mb := (x_maxbits X).
  Local Notation ENC := (enc reg mb 32 ctxf PU256 true).
  Local Notation ENCS := (encs reg mb 32 ctxf PU256 true).
  Context (RT : rt_ok reg X).
  Local Notation yl := (fun (t : TId) (v : value D) b => yields reg X v t b).
  Local Notation GOOD := (@good TId reg X D).
  Local Notation PARTS := (@parts TId D).

  Lemma by_name_any (kvs src : list (str * value D)) (fs : list (field TId)) bs : Permutation src kvs -> NoDup (map fst fs) -> map fst fs = map (fun kv => Some (fst kv)) kvs ->
    PARTS yl (map snd fs) (map snd kvs) bs ->
    exists F0, forall F, (F0 <= F)%nat -> forall out,
      encode_by_name (source_fields (composite_map (encode reg X F) (Named src))) fs out = (SOk, out ++ bs).
  Proof.
    intros PM ND EN HP. set (named := map (fun kv : str * value D => (Some (fst kv), snd kv)) src).
    assert (NDk : NoDup (map key_of named)).
    { unfold named. rewrite map_map. cbn [key_of fst]. change (NoDup (map fst src)). rewrite EN in ND. rewrite <- (map_map fst Some) in ND. apply NoDup_map_inv in ND.
      eapply Permutation_NoDup; [|exact ND]. apply Permutation_map, Permutation_sym, PM. }
    assert (SRC : forall F, source_fields (composite_map (encode reg X F) (Named src)) = map (fun x => (fst x, encode reg X F (snd x))) named).
    { intro F. unfold named. cbn [composite_map source_fields]. rewrite !map_map. reflexivity. }
    assert (G : forall (fs' : list (field TId)) (kvs' : list (str * value D)), map fst fs' = map (fun kv => Some (fst kv)) kvs' -> (forall kv, In kv kvs' -> In kv kvs) ->
       forall bs', PARTS yl (map snd fs') (map snd kvs') bs' ->
       exists F0, forall F, (F0 <= F)%nat -> forall out, encode_by_name (map (fun x => (fst x, encode reg X F (snd x))) named) fs' out = (SOk, out ++ bs')).
    { induction fs' as [|[n t] fs' IH]; intros [|[k v] kvs'] E HIn bs' HP'; try discriminate; cbn [map fst snd] in *.
      - inversion HP'; subst. exists 0%nat. intros F _ out. cbn. rewrite app_nil_r. reflexivity.
      - injection E as -> E. inversion HP' as [|? ? ? ? b bs'' [F1 H1] HP'']; subst.
        destruct (IH kvs' E (fun kv H => HIn kv (or_intror H)) bs'' HP'') as [F2 H2].
        exists (Nat.max F1 F2). intros F HF out. cbn [encode_by_name].
        assert (IS : In (Some k, v) named).
        { unfold named. apply in_map_iff. exists (k, v). split; [reflexivity|]. eapply Permutation_in; [apply Permutation_sym; exact PM|]. apply HIn. left. reflexivity. }
        pose proof (lookup_last_nodup named (encode reg X F) NDk (Some k, v) IS) as LK. unfold key_of in LK |- *. cbn [fst snd] in LK |- *.
        match goal with |- match ?l with _ => _ end = _ => replace l with (Some (encode reg X F v)) by (symmetry; exact LK) end.
        rewrite H1 by lia. cbn [andthen]. rewrite H2 by lia. rewrite app_assoc. reflexivity. }
    destruct (G fs kvs EN (fun kv H => H) bs HP) as [F0 H]. exists F0. intros F HF out. rewrite SRC. apply H. exact HF.
  Qed.

  Lemma unnamed_any (fs : list (field TId)) (ws : list (value D)) bs : length ws = length fs -> PARTS yl (map snd fs) ws bs ->
    exists F0, forall F, (F0 <= F)%nat -> forall out, encode_fields (source_fields (composite_map (encode reg X F) (Unnamed ws))) fs out = (SOk, out ++ bs).
  Proof.
    intros HL HP. destruct (in_order_yields reg X ctxd _ _ _ HP) as [F0 H]. exists F0. intros F HF out. unfold encode_fields.
    cbn [composite_map source_fields]. rewrite map_map. rewrite <- (map_map (encode reg X F) (fun v => (None, v))).
    rewrite existsb_named_none, andb_false_r. rewrite !map_length, HL, Nat.eqb_refl.
    rewrite map_map. cbn [snd]. rewrite map_id. apply H. exact HF.
  Qed.

  Lemma fields_any (fs : list (field TId)) (vs : list (value C)) cmp (cmp2 : composite (value D)) one bs : names_ok fs -> length vs = length fs ->
    (forall ws, Forall2 rearranged vs ws -> PARTS yl (map snd fs) ws bs) -> fields_shape (map fst fs) vs cmp -> fields_rearranged rearranged one cmp cmp2 ->
    exists F0, forall F, (F0 <= F)%nat -> forall out, encode_fields (source_fields (composite_map (encode reg X F) cmp2)) fs out = (SOk, out ++ bs).
  Proof.
    intros NO HL HP Sh FR. inversion Sh as [kvs Hne E1 E2 E3|names vs' HL' Hn E1 E2 E3]; subst.
    - assert (ND : NoDup (map fst fs)).
      { apply NO. rewrite <- E1. rewrite in_map_iff. intros (kv & E & _). discriminate. }
      inversion FR as [l l' m PM F2| |l m HO F2]; subst.
      + destruct (Permutation_Forall2 (Permutation_sym PM) F2) as (m' & PM' & F2').
        assert (EK : map fst fs = map (fun kv => Some (fst kv)) m').
        { rewrite <- E1. clear -F2'. induction F2' as [|a b l' m [E _] _ IH]; cbn [map]; [reflexivity|]. rewrite E, IH. reflexivity. }
        assert (RS : Forall2 rearranged (map snd kvs) (map snd m')).
        { clear -F2'. induction F2' as [|a b l' m [_ H] _ IH]; cbn [map]; constructor; assumption. }
        destruct (by_name_any m' m fs bs PM' ND EK (HP _ RS)) as [F0 H]. exists F0. intros F HF out. unfold encode_fields.
        assert (Hm : m' <> []) by (intros ->; inversion F2'; subst; congruence).
        assert (Hm2 : m <> []) by (intros ->; apply Permutation_nil in PM'; congruence).
        assert (N1 : existsb named_field fs = true).
        { destruct fs as [|[[n|] t] fs]; cbn [map fst] in EK; destruct m'; try discriminate; try contradiction. reflexivity. }
        specialize (H F HF out).
        assert (N2 : existsb named_field (source_fields (composite_map (encode reg X F) (Named m))) = true).
        { destruct m; [contradiction|reflexivity]. }
        match goal with |- (if ?a && ?b then _ else _) = _ => replace a with true by (symmetry; exact N1); replace b with true by (symmetry; exact N2) end.
        exact H.
      + apply unnamed_any; [|apply HP, F2]. rewrite <- (forall2_length _ _ _ F2). exact HL.
    - apply fr_unnamed in FR as (m & -> & F2). apply unnamed_any; [|apply HP, F2]. rewrite <- (forall2_length _ _ _ F2). exact HL.
  Qed.

  Lemma struct_any t (fs : list (field TId)) (vs : list (value C)) cmp (cmp2 : composite (value D)) bs ctx : reg t = ResTy (TComposite fs) -> nontransparent reg t -> length vs = length fs ->
    (forall ws, Forall2 rearranged vs ws -> PARTS yl (map snd fs) ws bs) -> fields_shape (map fst fs) vs cmp -> fields_rearranged rearranged False cmp cmp2 ->
    yields reg X (Val (DComposite cmp2) ctx) t bs.
  Proof.
    intros R NT HL HP Sh FR. apply composite_yields. destruct (fields_any fs vs cmp cmp2 False bs (rt_fields reg X RT t fs R) HL HP Sh FR) as [F0 H].
    exists (S F0). intros F HF. unfold do_encode. rewrite R. unfold encode_struct.
    rewrite (skip_nontransparent reg ctxd) by (auto; lia). rewrite R, composite_map_snd. specialize (H F ltac:(lia) []).
    match goal with |- match ?s with _ => _ end = _ => change (encode_fields s fs [] = (SOk, [] ++ bs)) in H; destruct s as [|[[n|] e] [|]] eqn:S; try exact H end.
    exfalso. assert (S1 : exists x, cmp2 = Unnamed [x]).
    { destruct cmp2 as [m|m]; cbn [composite_map source_fields] in S; rewrite map_map in S; destruct m as [|y [|]]; try discriminate S. eauto. }
    destruct S1 as [x ->]. inversion FR as [|l m F2|l m HO F2]; subst.
    - inversion F2 as [|a ? l0 ? _ F2']; subst. inversion F2'; subst.
      inversion Sh as [|names vs' HL' Hn E1 E2 E3]; subst. destruct fs as [|[n t'] [|]]; try discriminate.
      cbn [map fst In] in Hn. destruct Hn as [Hn|[Hn|[]]]; [discriminate|]. subst n. apply (NT t'), Tr_struct, R.
    - apply HO. apply forall2_length in F2. rewrite map_length in F2. exact F2.
  Qed.

  (** A list: what its layers do not confuse. *)
  Lemma sequence_any t e (ws : list (value D)) ctx pre bs : reg t = ResTy (TSequence e) -> compact_enc (N.of_nat (length ws)) pre ->
    (forall q, chain (wraps1 reg) e q -> record reg q -> Forall wide ws) -> PARTS (GOOD false) (repeat e (length ws)) ws bs ->
    yields reg X (Val (DComposite (Unnamed ws)) ctx) t (pre ++ bs) -> nestable reg t ->
    forall v', layered (Val (DComposite (Unnamed ws)) ctx) v' -> yields reg X v' t (pre ++ bs).
  Proof.
    intros R HC HW HP Y NE. inversion NE as [? H|? ? ? R'|? e' R' DF]; subst; try congruence; [exfalso; apply (proj1 (H e)); exact R|].
    rewrite R in R'. injection R' as <-. destruct DF as (q & CH & HQ).
    assert (FT : forall F, find_single reg (S F) t false = Some (t, false)) by (intro F; cbn [find_single]; rewrite R; reflexivity).
    intros v' L. induction L as [|w cw L IH]; [exact Y|].
    destruct (Nat.eq_dec (length ws) 1) as [L1|L1].
    - destruct ws as [|v [|? ?]]; try discriminate. cbn [length repeat] in *. inversion HP as [|? ? ? ? b bs' G HN]; subst. inversion HN; subst.
      destruct (definite_end reg e q CH HQ) as (u & H1 & H2 & H3).
      destruct (good_layered reg X ctxd e u v b G H1 H2 H3 w (layered_one _ _ _ L)) as [F0 H].
      apply composite_yields. exists F0. intros F HF. unfold do_encode. rewrite R. cbn [composite_map map values clen length snd encode_all].
      rewrite H by exact HF. cbn [andthen app]. rewrite app_nil_r. change (N.of_nat 1 mod 2 ^ 32) with 1.
      change 1 with (N.of_nat 1). rewrite (compact_enc_fun _ _ HC). reflexivity.
    - assert (RJ : rejected reg X w e).
      { eapply (layered_rejected reg X ws ctx q L1); [|exact L|exact CH]. destruct HQ as [A|RQ]; [left; exact A|right]. split; [exact RQ|]. eapply HW; eassumption. }
      destruct RJ as [F1 H1]. destruct IH as [F2 H2]. exists (S (Nat.max F1 F2)). intros F HF out. cbn [encode]. unfold encode_composite.
      destruct F as [|F]; [lia|]. rewrite FT. unfold do_encode. rewrite R. cbn [composite_map map values clen length snd encode_all].
      match goal with |- context [encode reg X (S F) w e ?o] => destruct (H1 (S F) ltac:(lia) o) as [er E]; destruct (encode reg X (S F) w e o) as [s o'] end.
      cbn [fst] in E. subst s. cbn [andthen]. rewrite H2 by lia. reflexivity.
  Qed.

  Lemma prim_any t p x y bs (ctx : D) : reg t = ResTy (TPrim p) -> prim_enc 32 PU256 p x bs -> same_prim x y -> yields reg X (Val (DPrim y) ctx) t bs.
  Proof.
    intros R HP S. pose proof (prim_yields reg X (fun _ : TId => ctx) RT t p x bs R HP) as [F0 Y]. exists F0. intros F HF out. rewrite <- (Y F HF out).
    destruct S as [x|n|n]; [reflexivity| |]; cbn [encode encode_primitive]; reflexivity.
  Qed.

  Lemma rearranged_mut :
    (forall c t v bs, ENC c t v bs -> forall w : value D, rearranged v w -> GOOD c t w bs) /\
    (forall c ts vs bs, ENCS c ts vs bs -> forall ws : list (value D), Forall2 rearranged vs ws -> PARTS (GOOD c) ts ws bs).
  Proof.
    apply enc_encs_ind.
    - intros t p x bs R HP w RA. inversion RA as [? q ? c2 S| | | |]; subst.
      apply (good_plain reg X ctxd); [eauto|eapply nontransp_other; [exact R|exact I]|eapply peelable_other; [exact R|exact I]|]. eapply prim_any; eauto.
    - intros t w n bs R Hn HC w0 RA T0 t0 R0 CH. inversion RA as [? q ? c2 S| | | |]; subst.
      assert (EQ : forall F out, encode reg X F (Val (DPrim q) c2) T0 out = encode reg X F (Val (DPrim (PU128 n)) c2) T0 out).
      { intros F out. inversion S; subst; reflexivity. }
      destruct (find_wraps1 reg ctxd _ _ _ CH R) as [F0 HF0].
      exists (Datatypes.S F0). intros [|F] HF out; [lia|]. rewrite EQ. cbn [encode encode_primitive]. unfold encode_number.
      replace (find_single reg (Datatypes.S F) T0 false) with (Some (T0, false)) by (cbn [find_single]; rewrite R0; reflexivity). rewrite R0.
      destruct (HF0 (Datatypes.S F) ltac:(lia) false) as [d ->]. rewrite R, (lt_in_unsigned w n Hn), N2Z.id, (compact_enc_fun _ _ HC). reflexivity.
    - intros c t t' v bs R _ IH w RA. specialize (IH w RA). cbn [good] in IH. destruct c.
      + intros T0 t0 R0 CH. exfalso. eapply (rt_compact reg X RT); eassumption.
      + apply (good_plain reg X ctxd); [eauto|eapply nontransp_other; [exact R|exact I]|eapply peelable_other; [exact R|exact I]|]. eapply IH; [exact R|constructor].
    - intros c t fs vs cmp bs R HC ES IH Sh w RA. inversion RA as [| | |k1 cmp2 c1 c2 FR|]; subst. apply encs_length in ES. rewrite map_length in ES. destruct c.
      + intros T0 t0 R0 CH. specialize (HC eq_refl). destruct fs as [|[n t'] [|]]; try discriminate. cbn [map snd fst length] in *.
        destruct vs as [|x [|]]; try discriminate. assert (V : values cmp = [x]) by (inversion Sh; reflexivity || (subst; assumption)).
        destruct (fr_one _ _ _ _ _ FR V) as (y & V2 & Rxy). specialize (IH [y] (Forall2_cons _ _ Rxy (Forall2_nil _))).
        inversion IH as [|? ? ? ? b bs' Hx Hnil]; subst. inversion Hnil; subst. rewrite app_nil_r.
        eapply compact_good; [exact R0|exact V2|eapply Hx; [exact R0|]].
        eapply chain_snoc; [exact CH|]. eapply W_struct; exact R.
      + destruct (single_transparent_dec reg t fs R) as [(t' & -> & Tr)|NT].
        * cbn [map snd fst length] in *. inversion Sh as [kvs Hne E1 E2 E3|names vs' HL Hn E1 E2 E3]; subst.
          -- destruct kvs as [|? [|]]; discriminate.
          -- apply fr_unnamed in FR as (m & -> & F2). specialize (IH m F2). inversion IH as [|? ? x ? b bs' Hx Hnil]; subst. inversion Hnil; subst. rewrite app_nil_r.
             eapply (good_wrapper reg X ctxd RT); eassumption.
        * apply (good_plain reg X ctxd); [eauto|exact NT|eapply peelable_other; [exact R|exact I]|]. eapply struct_any; [exact R|exact NT|exact ES| |exact Sh|exact FR].
          intros ws F2. apply parts_yl, IH, F2.
    - intros c t ts vs bs R HC _ IH w RA. inversion RA as [| | |k1 cmp2 c1 c2 FR|]; subst. apply fr_unnamed in FR as (ws & -> & F2). specialize (IH ws F2). destruct c.
      + intros T0 t0 R0 CH. specialize (HC eq_refl). destruct ts as [|t' [|]]; try discriminate.
        inversion IH as [|? ? x ? b bs' Hx Hnil]; subst. inversion Hnil; subst. rewrite app_nil_r.
        eapply compact_good; [exact R0|reflexivity|eapply Hx; [exact R0|]]. eapply chain_snoc; [exact CH|]. apply W_tuple; exact R.
      + assert (DT : (exists t', ts = [t']) \/ nontransparent reg t).
        { destruct ts as [|t' [|]]; try (right; intros w0 Hw; inversion Hw as [? ? R'|? ? R']; rewrite R in R'; discriminate). left; eauto. }
        destruct DT as [[t' ->]|NT].
        * inversion IH as [|? ? x ? b bs' Hx Hnil]; subst. inversion Hnil; subst. rewrite app_nil_r. eapply (good_wrapper reg X ctxd RT); [apply Tr_tuple; exact R|exact Hx].
        * apply (good_plain reg X ctxd); [eauto|exact NT|eapply peelable_other; [exact R|exact I]|]. eapply (tuple_yields reg X ctxd); [exact R|exact NT|apply parts_yl; exact IH].
    - intros t l1 name idx fs l2 vs cmp bs R Hn Hi ES IH Sh w RA. inversion RA as [| | | |n k1 cmp2 c1 c2 FR]; subst. apply encs_length in ES. rewrite map_length in ES.
      assert (NT : nontransparent reg t) by (eapply nontransp_other; [exact R|exact I]). apply (good_plain reg X ctxd); [eauto|exact NT|eapply peelable_other; [exact R|exact I]|].
      destruct (rt_variants reg X RT t _ R) as [ND NO]. rewrite Forall_forall in NO.
      specialize (NO (VInfo name idx fs) ltac:(apply in_or_app; right; left; reflexivity)). cbn [vi_fields] in NO.
      destruct (fields_any fs vs cmp cmp2 True bs NO ES (fun ws F2 => parts_yl reg X _ _ _ (IH ws F2)) Sh FR) as [F0 H]. exists (Datatypes.S F0). intros F HF out. cbn [encode]. unfold encode_variant.
      rewrite (skip_nontransparent reg ctxd) by (auto; lia). rewrite R.
      assert (FD : find (fun u => str_eqb (vi_name u) name) (l1 ++ VInfo name idx fs :: l2) = Some (VInfo name idx fs)).
      { apply (find_name_app l1 l2 (VInfo name idx fs)). rewrite map_app in ND. cbn [map] in ND. apply NoDup_remove_2 in ND.
        intro Hin. apply ND, in_or_app. left. exact Hin. }
      rewrite FD, composite_map_snd. cbn [vi_fields vi_index]. rewrite H by lia. rewrite <- app_assoc. reflexivity.
    - intros t t' vs pre bs R HL HC ES IH w RA. inversion RA as [| | |k1 cmp2 c1 c2 FR|]; subst. apply fr_unnamed in FR as (ws & -> & F2).
      specialize (IH ws F2). pose proof (forall2_length _ _ _ F2) as EL. rewrite EL in HL, HC, IH.
      assert (Y : yields reg X (Val (DComposite (Unnamed ws)) c2) t (pre ++ bs)).
      { destruct (all_yields reg X ctxd _ _ _ (parts_yl reg X _ _ _ IH)) as [F0 H]. apply composite_yields. exists F0. intros F HF. unfold do_encode. rewrite R.
        rewrite clen_values, values_map, map_length, map_map. cbn [values snd]. rewrite mod32 by exact HL.
        rewrite H by exact HF. cbn [app]. rewrite (compact_enc_fun _ _ HC). reflexivity. }
      apply (good_layers reg X ctxd); [eauto|eapply nontransp_other; [exact R|exact I]|exact Y|].
      eapply sequence_any; try eassumption. intros q CH RQ. clear -ES F2 CH RQ. revert bs ES. induction F2 as [|v w vs ws Rvw _ IH]; intros bs ES; [constructor|].
      cbn [length repeat] in ES. inversion ES as [|? ? ? ? ? b bs' E ES']; subst. constructor; [|eapply IH; exact ES'].
      eapply wide_rearranged; [eapply record_wide; eassumption|exact Rvw].
    - intros t t' n vs bs R HL ES IH w RA. inversion RA as [| | |k1 cmp2 c1 c2 FR|]; subst. apply fr_unnamed in FR as (ws & -> & F2).
      specialize (IH ws F2). pose proof (forall2_length _ _ _ F2) as EL. rewrite EL in R, IH.
      assert (NT : nontransparent reg t) by (eapply nontransp_other; [exact R|exact I]).
      assert (Y : yields reg X (Val (DComposite (Unnamed ws)) c2) t bs).
      { destruct (all_yields reg X ctxd _ _ _ (parts_yl reg X _ _ _ IH)) as [F0 H]. apply composite_yields. exists F0. intros F HF. unfold do_encode. rewrite R.
        rewrite clen_values, values_map, map_length, map_map. cbn [values snd]. rewrite N.eqb_refl. rewrite H by exact HF. reflexivity. }
      apply (good_layers reg X ctxd); [eauto|exact NT|exact Y|]. eapply (array_layers reg X ctxd); eassumption.
    - intros t st o b pre bs R Hl Hm HC HP w RA. apply (good_plain reg X ctxd); [eauto|eapply nontransp_other; [exact R|exact I]|eapply peelable_other; [exact R|exact I]|].
      assert (Y : forall ctx : D, yields reg X (Val (DBits b) ctx) t (pre ++ bs)).
      { intro ctx. eapply (leaf_yields reg X ctxd); [exact R|exact I| |reflexivity]. cbn beta iota. unfold encode_bits. rewrite mod32 by exact Hl.
        rewrite <- (compact_enc_fun _ _ HC), <- (payload_strict_fun _ _ _ _ HP). reflexivity. }
      inversion RA as [|? c1 c2|? l c1 c2 F2| |]; subst; [apply Y|].
      apply encodes_yields. apply (bools_iff reg X (Unnamed l) c2 t st o (pre ++ bs) R). left. exists b. split; [exact F2|].
      unfold encode_bits. rewrite mod32 by exact Hl. rewrite <- (compact_enc_fun _ _ HC), <- (payload_strict_fun _ _ _ _ HP). reflexivity.
    - intros c ws F2. inversion F2; subst. constructor.
    - intros c t ts v vs b bs _ H1 _ H2 ws F2. inversion F2; subst. constructor; auto.
  Qed.

  Lemma encode_rearranged_at t v bs (w : value D) : ENC false t v bs -> rearranged v w -> yields reg X w t bs.
  Proof. intros H RA. apply (proj1 rearranged_mut) with (w := w) in H; [|exact RA]. apply H. Qed.
End Reorder.

Theorem encode_rearranged {TId} (reg : TId -> resolution TId) (X : ext) {C} (ctxf : TId -> C) {D} t v bs (w : value D) : rt_ok reg X ->
  enc reg (x_maxbits X) 32 ctxf PU256 true false t v bs -> rearranged v w -> yields reg X w t bs.
Proof. intros RT H RA. eapply (encode_rearranged_at reg X ctxf (fun _ : TId => match w with Val _ c => c end)); eassumption. Qed.
