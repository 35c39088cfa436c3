(** * EncodeComplete: encoding undoes decoding (C24). *)
From Verif Require Import Base Value ValueFacts Registry Spec_Scale Scale ScaleFacts BitsFacts Decode DecodeFacts Encode EncodeFacts Spec_Encode EncodeSound EncodeNested.
Open Scope N_scope.

Section Complete.
  Context {TId : Type} (reg : TId -> resolution TId) (X : ext).
  Context {C : Type} (ctxf : TId -> C).
  Local Notation mb := (x_maxbits X).
  Local Notation ENC := (enc reg mb 32 ctxf PU256 true).
  Local Notation ENCS := (encs reg mb 32 ctxf PU256 true).
  Context (RT : rt_ok reg X).

  (** With enough fuel the encoder appends exactly [bs]. *)
  Definition yields (v : value C) (t : TId) (bs : bytes) : Prop :=
    exists F0, forall F, (F0 <= F)%nat -> forall out, encode reg X F v t out = (SOk, out ++ bs).

  Definition nontransparent (u : TId) : Prop := forall w, ~ transparent reg u w.
  Definition peelable (u : TId) : Prop := forall e, reg u <> ResTy (TSequence e) /\ reg u <> ResTy (TArray e 1).

  Lemma skip_nontransparent F u : nontransparent u -> (1 <= F)%nat -> skip_through reg F u = Some u.
  Proof.
    intros H HF. destruct F as [|F]; [lia|]. cbn [skip_through].
    destruct (reg u) as [| |[fs|vs|t'|t' n|ts|p|t'|st o]] eqn:R; try reflexivity.
    - destruct fs as [|[[name|] t'] [|]]; try reflexivity. exfalso. apply (H t'), Tr_struct, R.
    - destruct ts as [|t' [|]]; try reflexivity. exfalso. apply (H t'), Tr_tuple, R.
  Qed.

  Lemma skip_step F t t' : transparent reg t t' -> skip_through reg (S F) t = skip_through reg F t'.
  Proof. intros [u u' R|u u' R]; cbn [skip_through]; rewrite R; reflexivity. Qed.

  Lemma transparent_inj t a b : transparent reg t a -> transparent reg t b -> a = b.
  Proof. intros [? ? R1|? ? R1] H; inversion H as [? ? R2|? ? R2]; subst; congruence. Qed.

  Lemma find_wraps1 t0 t p : chain (wraps1 reg) t0 t -> reg t = ResTy (TPrim p) ->
    exists F0, forall F, (F0 <= F)%nat -> forall c, exists d, find_single reg F t0 c = Some (t, d).
  Proof.
    induction 1 as [t|t t' u W _ IH]; intro R.
    - exists 1%nat. intros [|F] HF c; [lia|]. cbn [find_single]. rewrite R. eauto.
    - destruct (IH R) as [F0 H]. exists (S F0). intros [|F] HF c; [lia|]. cbn [find_single].
      destruct W as [a name b Ra|a b Ra]; rewrite Ra; cbn [snd]; apply H; lia.
  Qed.

  Lemma chain_snoc {R : TId -> TId -> Prop} t u w : chain R t u -> R u w -> chain R t w.
  Proof. induction 1 as [t|t t' u Rt _ IH]; intro H; [eapply Ch_step; [exact H|constructor]|]. eapply Ch_step; [exact Rt|apply IH, H]. Qed.

  (** Consecutive items. *)
  Inductive parts (P : TId -> value C -> bytes -> Prop) : list TId -> list (value C) -> bytes -> Prop :=
  | Pa_nil : parts P [] [] []
  | Pa_cons : forall t ts v vs b bs, P t v b -> parts P ts vs bs -> parts P (t :: ts) (v :: vs) (b ++ bs).

  Lemma parts_impl (P Q : TId -> value C -> bytes -> Prop) ts vs bs : (forall t v b, P t v b -> Q t v b) -> parts P ts vs bs -> parts Q ts vs bs.
  Proof. intro H. induction 1; constructor; auto. Qed.

  Lemma parts_length P ts vs bs : parts P ts vs bs -> length vs = length ts.
  Proof. induction 1; cbn; congruence. Qed.

  Local Notation yl := (fun t v b => yields v t b).

  Lemma in_order_yields ts vs bs : parts yl ts vs bs ->
    exists F0, forall F, (F0 <= F)%nat -> forall out, encode_in_order (map (encode reg X F) vs) ts out = (SOk, out ++ bs).
  Proof.
    induction 1 as [|t ts v vs b bs [F1 H1] _ [F2 H2]].
    - exists 0%nat. intros F _ out. cbn. rewrite app_nil_r. reflexivity.
    - exists (Nat.max F1 F2). intros F HF out. cbn [map encode_in_order]. rewrite H1 by lia. cbn [andthen]. rewrite H2 by lia.
      rewrite app_assoc. reflexivity.
  Qed.

  Lemma all_yields t vs bs : parts yl (repeat t (length vs)) vs bs ->
    exists F0, forall F, (F0 <= F)%nat -> forall out, encode_all (map (encode reg X F) vs) t out = (SOk, out ++ bs).
  Proof.
    remember (repeat t (length vs)) as ts eqn:E. intro H. revert E. induction H as [|t' ts v vs b bs [F1 H1] _ IH]; intro E.
    - exists 0%nat. intros F _ out. cbn. rewrite app_nil_r. reflexivity.
    - cbn [length repeat] in E. injection E as -> E. destruct (IH E) as [F2 H2].
      exists (Nat.max F1 F2). intros F HF out. cbn [map encode_all]. rewrite H1 by lia. cbn [andthen]. rewrite H2 by lia.
      rewrite app_assoc. reflexivity.
  Qed.

  Lemma lookup_last_none {A} name (src : list (option str * A)) (f : A -> encoder (TId:=TId)) :
    ~ In name (map key_of src) -> lookup_last name (map (fun x => (fst x, f (snd x))) src) = None.
  Proof.
    induction src as [|[n a] src IH]; cbn [map lookup_last fst snd]; intro H; [reflexivity|].
    rewrite IH by (intro; apply H; right; assumption). cbn [key_of fst].
    destruct (str_eqb _ name) eqn:E; [|reflexivity]. exfalso. apply H. left. apply str_eqb_eq. exact E.
  Qed.
  Lemma lookup_last_nodup {A} (src : list (option str * A)) (f : A -> encoder (TId:=TId)) : NoDup (map key_of src) -> forall x, In x src ->
    lookup_last (key_of x) (map (fun x => (fst x, f (snd x))) src) = Some (f (snd x)).
  Proof.
    induction src as [|y src IH]; intros ND x Hx; [destruct Hx|]. cbn [map] in ND. inversion ND as [|? ? Hn ND']; subst.
    cbn [map lookup_last]. destruct Hx as [->|Hx].
    - rewrite lookup_last_none by exact Hn. change (key_of (fst x, f (snd x))) with (key_of x). rewrite str_eqb_refl. reflexivity.
    - rewrite (IH ND' x Hx). reflexivity.
  Qed.

  Lemma by_name_yields kvs fs bs : NoDup (map fst fs) -> map fst fs = map (fun kv => Some (fst kv)) kvs ->
    parts yl (map snd fs) (map snd kvs) bs ->
    exists F0, forall F, (F0 <= F)%nat -> forall out,
      encode_by_name (source_fields (composite_map (encode reg X F) (Named kvs))) fs out = (SOk, out ++ bs).
  Proof.
    intros ND EN HP.
    assert (NDk : NoDup (map key_of (map (fun kv : str * value C => (Some (fst kv), snd kv)) kvs))).
    { rewrite map_map. cbn [key_of fst]. rewrite EN in ND. clear -ND. change (NoDup (map fst kvs)).
      rewrite <- (map_map fst Some) in ND. apply NoDup_map_inv in ND. exact ND. }
    assert (SRC : forall F, source_fields (composite_map (encode reg X F) (Named kvs)) =
                  map (fun x => (fst x, encode reg X F (snd x))) (map (fun kv : str * value C => (Some (fst kv), snd kv)) kvs)).
    { intro F. cbn [composite_map source_fields]. rewrite !map_map. reflexivity. }
    set (src := map (fun kv : str * value C => (Some (fst kv), snd kv)) kvs) in *.
    assert (G : forall fs' kvs', map fst fs' = map (fun kv => Some (fst kv)) kvs' -> (forall kv, In kv kvs' -> In kv kvs) ->
       forall bs', parts yl (map snd fs') (map snd kvs') bs' ->
       exists F0, forall F, (F0 <= F)%nat -> forall out, encode_by_name (map (fun x => (fst x, encode reg X F (snd x))) src) fs' out = (SOk, out ++ bs')).
    { induction fs' as [|[n t] fs' IH]; intros [|[k v] kvs'] E HIn bs' HP'; try discriminate; cbn [map fst snd] in *.
      - inversion HP'; subst. exists 0%nat. intros F _ out. cbn. rewrite app_nil_r. reflexivity.
      - injection E as -> E. inversion HP' as [|? ? ? ? b bs'' [F1 H1] HP'']; subst.
        destruct (IH kvs' E (fun kv H => HIn kv (or_intror H)) bs'' HP'') as [F2 H2].
        exists (Nat.max F1 F2). intros F HF out. cbn [encode_by_name].
        assert (IS : In (Some k, v) src).
        { unfold src. apply in_map_iff. exists (k, v). split; [reflexivity|]. apply HIn. left. reflexivity. }
        pose proof (lookup_last_nodup src (encode reg X F) NDk (Some k, v) IS) as LK. unfold key_of in LK |- *. cbn [fst snd] in LK |- *.
        match goal with |- match ?l with _ => _ end = _ => replace l with (Some (encode reg X F v)) by (symmetry; exact LK) end.
        rewrite H1 by lia. cbn [andthen]. rewrite H2 by lia. rewrite app_assoc. reflexivity. }
    destruct (G fs kvs EN (fun kv H => H) bs HP) as [F0 H]. exists F0. intros F HF out. rewrite SRC. apply H. exact HF.
  Qed.

  Lemma existsb_named_all {A} (kvs : list (str * A)) : kvs <> [] -> existsb named_field (map (fun kv => (Some (fst kv), snd kv)) kvs) = true.
  Proof. destruct kvs; [contradiction|reflexivity]. Qed.
  Lemma existsb_named_none {A} (vs : list A) : existsb named_field (map (fun v => (None, v)) vs) = false.
  Proof. induction vs; [reflexivity|exact IHvs]. Qed.

  Lemma fields_yields fs vs cmp bs : names_ok fs -> parts yl (map snd fs) vs bs -> fields_shape (map fst fs) vs cmp ->
    exists F0, forall F, (F0 <= F)%nat -> forall out,
      encode_fields (source_fields (composite_map (encode reg X F) cmp)) fs out = (SOk, out ++ bs).
  Proof.
    intros NO HP Sh. inversion Sh as [kvs Hne E1 E2 E3|names vs' HL Hn E1 E2 E3]; subst.
    - assert (ND : NoDup (map fst fs)).
      { apply NO. rewrite <- E1. rewrite in_map_iff. intros (kv & E & _). discriminate. }
      destruct (by_name_yields kvs fs bs ND (eq_sym E1) HP) as [F0 H]. exists F0. intros F HF out. unfold encode_fields.
      assert (N1 : existsb named_field fs = true).
      { destruct fs as [|[[n|] t] fs]; cbn [map fst] in E1; destruct kvs; try discriminate; try contradiction. reflexivity. }
      specialize (H F HF out).
      assert (N2 : existsb named_field (source_fields (composite_map (encode reg X F) (Named kvs))) = true).
      { destruct kvs; [contradiction|reflexivity]. }
      match goal with |- (if ?a && ?b then _ else _) = _ => replace a with true by (symmetry; exact N1); replace b with true by (symmetry; exact N2) end.
      exact H.
    - destruct (in_order_yields _ _ _ HP) as [F0 H]. exists F0. intros F HF out. unfold encode_fields.
      cbn [composite_map source_fields]. rewrite map_map. rewrite <- (map_map (encode reg X F) (fun v => (None, v))).
      rewrite existsb_named_none, andb_false_r. rewrite !map_length, <- HL, map_length, Nat.eqb_refl.
      rewrite map_map. cbn [snd]. rewrite map_id. apply H. exact HF.
  Qed.

  (** If the first attempt succeeds the composite is encoded. *)
  Lemma composite_yields cmp t ctx bs :
    (exists F0, forall F, (F0 <= F)%nat -> do_encode reg F (composite_map (fun x => (x, encode reg X F x)) cmp) t [] = (SOk, bs)) ->
    yields (Val (DComposite cmp) ctx) t bs.
  Proof.
    intros [F0 H]. exists F0. intros F HF out. cbn [encode]. unfold encode_composite. rewrite H by exact HF. reflexivity.
  Qed.

  Lemma composite_map_snd {A B} (f : A -> B) (c : composite A) :
    composite_map snd (composite_map (fun x => (x, f x)) c) = composite_map f c.
  Proof. destruct c as [l|l]; cbn [composite_map]; rewrite map_map; reflexivity. Qed.

  (** A struct or tuple that is not a single-unnamed-field wrapper. *)
  Lemma struct_yields t fs cmp vs bs ctx : reg t = ResTy (TComposite fs) -> nontransparent t -> parts yl (map snd fs) vs bs ->
    fields_shape (map fst fs) vs cmp -> yields (Val (DComposite cmp) ctx) t bs.
  Proof.
    intros R NT HP Sh. apply composite_yields. destruct (fields_yields fs vs cmp bs (rt_fields reg X RT t fs R) HP Sh) as [F0 H].
    exists (S F0). intros F HF. unfold do_encode. rewrite R. unfold encode_struct.
    rewrite skip_nontransparent by (auto; lia). rewrite R, composite_map_snd. specialize (H F ltac:(lia) []).
    match goal with |- match ?s with _ => _ end = _ => change (encode_fields s fs [] = (SOk, [] ++ bs)) in H; destruct s as [|[[n|] e] [|]] eqn:S; try exact H end.
    exfalso. inversion Sh as [kvs Hne E1 E2 E3|names vs' HL Hn E1 E2 E3]; subst.
    - destruct kvs; [contradiction|]. cbn in S. discriminate.
    - destruct vs as [|x [|]]; try discriminate. rewrite map_length in HL. destruct fs as [|[n t'] [|]]; try discriminate.
      cbn [map fst In] in Hn. destruct Hn as [Hn|[Hn|[]]]; [discriminate|]. subst n. apply (NT t'), Tr_struct, R.
  Qed.
  Lemma tuple_yields t ts vs bs ctx : reg t = ResTy (TTuple ts) -> nontransparent t -> parts yl ts vs bs ->
    yields (Val (DComposite (Unnamed vs)) ctx) t bs.
  Proof.
    intros R NT HP. apply composite_yields. pose proof (parts_length _ _ _ _ HP) as L. destruct (in_order_yields _ _ _ HP) as [F0 H].
    exists (S F0). intros F HF. unfold do_encode. rewrite R. unfold encode_struct.
    rewrite skip_nontransparent by (auto; lia). rewrite R, composite_map_snd. specialize (H F ltac:(lia) []).
    cbn [composite_map source_fields]. rewrite map_map.
    assert (G : encode_fields (map (fun x => (None, encode reg X F x)) vs) (map (fun t => (None, t)) ts) [] = (SOk, [] ++ bs)).
    { unfold encode_fields. rewrite existsb_named_none. cbn [andb]. rewrite !map_length, L, Nat.eqb_refl, !map_map. cbn [snd]. rewrite map_id. exact H. }
    destruct vs as [|x [|y vs]]; cbn [map] in *; try exact G. destruct ts as [|t' [|]]; try discriminate.
    exfalso. apply (NT t'), Tr_tuple, R.
  Qed.

  (** A wrapper [t] around [t'], whose innermost type is [u]. *)
  Lemma wrapper_yields t u x ctx bs : (exists F0, forall F, (F0 <= F)%nat -> skip_through reg F t = Some u) ->
    (exists t', transparent reg t t') -> (exists ty, reg u = ResTy ty) -> yields x u bs -> yields (Val (DComposite (Unnamed [x])) ctx) t bs.
  Proof.
    intros [F1 HS] [t' Tr] Hu [F2 HX]. apply composite_yields. exists (Nat.max F1 F2). intros F HF. unfold do_encode.
    assert (G : encode_struct reg F (source_fields (composite_map snd (composite_map (fun x => (x, encode reg X F x)) (Unnamed [x])))) t [] = (SOk, bs)).
    { unfold encode_struct. rewrite HS by lia. cbn [composite_map map source_fields snd].
      assert (E : encode reg X F x u [] = (SOk, bs)) by (rewrite HX by lia; reflexivity).
      destruct Hu as [ty R]. rewrite R. destruct ty as [fs|vs|a|a n|ts|p|a|st o]; exact E. }
    inversion Tr as [? ? R|? ? R]; subst; rewrite R; exact G.
  Qed.

  (** One more layer around a value does not matter at types that cannot take the layer themselves. *)
  Lemma peel_yields u x ctx bs : nontransparent u -> peelable u -> yields x u bs -> yields (Val (DComposite (Unnamed [x])) ctx) u bs.
  Proof.
    intros NT PL [F0 HX]. exists (S F0). intros F HF out.
    assert (E : encode reg X F x u [] = (SOk, bs)) by (rewrite HX by lia; reflexivity).
    destruct F as [|F]; [lia|]. cbn [encode]. unfold encode_composite. cbn [composite_map map].
    assert (FS : (exists t' n, reg u = ResTy (TArray t' n)) \/ (exists st o, reg u = ResTy (TBitSeq st o)) \/ reg u = ResErr -> find_single reg (S F) u false = Some (u, false)).
    { intros [(t' & n & R)|[(st & o & R)|R]]; cbn [find_single]; rewrite R; try reflexivity.
      destruct (N.eqb_spec n 1) as [->|]; [|reflexivity]. exfalso. apply (proj2 (PL t')). exact R. }
    assert (DONE : forall r, do_encode reg (S F) (Unnamed [(x, encode reg X (S F) x)]) u [] = (SErr r, []) -> find_single reg (S F) u false = Some (u, false) ->
      match do_encode reg (S F) (Unnamed [(x, encode reg X (S F) x)]) u [] with
      | (SOk, tmp) => (SOk, out ++ tmp)
      | (SErr original_error, _) =>
          match find_single reg (S F) u false with
          | Some (t', different) =>
              match (if different then do_encode reg (S F) (Unnamed [(x, encode reg X (S F) x)]) t' [] else (SErr original_error, [])) with
              | (SOk, tmp) => (SOk, out ++ tmp)
              | (SErr _, _) =>
                  match values (Unnamed [(x, encode reg X (S F) x)]) with
                  | [x0] => match snd x0 t' [] with
                            | (SOk, tmp) => (SOk, out ++ tmp)
                            | (SErr _, _) => (SErr original_error, out)
                            | (SHang, _) => (SHang, out)
                            end
                  | _ => (SErr original_error, out)
                  end
              | (SHang, _) => (SHang, out)
              end
          | None => (SHang, out)
          end
      | (SHang, _) => (SHang, out)
      end = (SOk, out ++ bs)).
    { intros r D FSu. rewrite D, FSu. cbn [values snd]. rewrite E. reflexivity. }
    destruct (reg u) as [| |[fs|vs|a|a n|ts|p|a|st o]] eqn:R.
    - apply (DONE XTypeResolving); [unfold do_encode; rewrite R; reflexivity|apply FS; auto].
    - unfold do_encode. rewrite R. cbn [values snd]. rewrite E. reflexivity.
    - unfold do_encode. rewrite R. unfold encode_struct. rewrite skip_nontransparent by (auto; lia). rewrite R.
      cbn [composite_map map source_fields snd]. rewrite E. reflexivity.
    - unfold do_encode. rewrite R. cbn [values snd]. rewrite E. reflexivity.
    - exfalso. apply (proj1 (PL a)). exact R.
    - destruct (N.eqb_spec n 1) as [->|Hn]; [exfalso; apply (proj2 (PL a)); exact R|].
      apply (DONE XWrongLength); [|apply FS; eauto]. unfold do_encode. rewrite R. cbn [clen length].
      destruct (N.eqb_spec (N.of_nat 1) n) as [En|]; [exfalso; apply Hn; rewrite <- En; reflexivity|]. reflexivity.
    - unfold do_encode. rewrite R. unfold encode_struct. rewrite skip_nontransparent by (auto; lia). rewrite R.
      cbn [composite_map map source_fields snd]. rewrite E. reflexivity.
    - unfold do_encode. rewrite R. cbn [values snd]. rewrite E. reflexivity.
    - unfold do_encode. rewrite R. cbn [values snd]. rewrite E. reflexivity.
    - apply (DONE XBadBit); [|apply FS; eauto]. unfold do_encode. rewrite R. cbn [values map fst bits_of].
      destruct (bit_of x) as [b|] eqn:B; [|reflexivity]. exfalso.
      destruct x as [[c|n c|l|p] cx]; try discriminate. cbn [encode] in E.
      destruct p; try discriminate; cbn [encode_primitive] in E; unfold encode_bool, encode_leaf, encode_number in E;
        cbn [find_single] in E; rewrite R in E; rewrite R in E; discriminate.
  Qed.

  Lemma peelable_other t ty : reg t = ResTy ty -> match ty with TSequence _ => False | TArray _ n => n <> 1 | _ => True end -> peelable t.
  Proof. intros R Hty e. split; intro E; rewrite R in E; injection E as ->; [exact Hty|apply Hty; reflexivity]. Qed.
  Lemma chain_end_fun t u w : chain (transparent reg) t u -> nontransparent u -> chain (transparent reg) t w -> nontransparent w -> u = w.
  Proof.
    induction 1 as [t|t t' u Tr _ IH]; intros N1 H N2.
    - inversion H as [|? t' ? Tr]; subst; [reflexivity|]. exfalso. apply (N1 t'), Tr.
    - inversion H as [|? t2 ? Tr2 H']; subst; [exfalso; apply (N2 t'), Tr|]. rewrite (transparent_inj _ _ _ Tr Tr2) in IH. apply IH; assumption.
  Qed.

  (** What is proved by induction on the encoding. *)
  Definition good (c : bool) (t : TId) (v : value C) (bs : bytes) : Prop :=
    if c then forall T0 t0, reg T0 = ResTy (TCompact t0) -> chain (wraps1 reg) t0 t -> yields v T0 bs
    else yields v t bs /\
         exists u, (exists ty, reg u = ResTy ty) /\ nontransparent u /\ chain (transparent reg) t u /\
           (exists F0, forall F, (F0 <= F)%nat -> skip_through reg F t = Some u) /\
           (nestable reg u -> forall v', layered v v' -> yields v' u bs).

  (** A type that is not a wrapper. *)
  Lemma good_layers t v bs : (exists ty, reg t = ResTy ty) -> nontransparent t -> yields v t bs ->
    (nestable reg t -> forall v', layered v v' -> yields v' t bs) -> good false t v bs.
  Proof.
    intros Ht NT Y L. split; [exact Y|]. exists t. split; [exact Ht|]. split; [exact NT|]. split; [constructor|]. split; [|exact L].
    exists 1%nat. intros F HF. apply skip_nontransparent; assumption.
  Qed.
  Lemma good_plain t v bs : (exists ty, reg t = ResTy ty) -> nontransparent t -> peelable t -> yields v t bs -> good false t v bs.
  Proof.
    intros Ht NT PL Y. apply good_layers; auto. intros _ v' L. induction L as [|v' ctx L IH]; [exact Y|]. apply peel_yields; assumption.
  Qed.

  Lemma good_wrapper t t' x ctx bs : transparent reg t t' -> good false t' x bs -> good false t (Val (DComposite (Unnamed [x])) ctx) bs.
  Proof.
    intros Tr [Y (u & Hu & NT & CH & [F0 SK] & PY)].
    assert (SK' : exists F0, forall F, (F0 <= F)%nat -> skip_through reg F t = Some u).
    { exists (S F0). intros [|F] HF; [lia|]. rewrite (skip_step F t t' Tr). apply SK. lia. }
    assert (YU : yields x u bs).
    { inversion CH as [|? t'' ? Tr' CH']; subst; [exact Y|]. apply PY; [|constructor]. exact (rt_nested reg X RT _ _ _ _ Tr Tr' CH' NT). }
    split; [eapply wrapper_yields; eauto|].
    exists u. split; [exact Hu|]. split; [exact NT|]. split; [eapply Ch_step; eassumption|]. split; [exact SK'|].
    intros NE v' L. apply PY; [exact NE|]. clear -L. induction L as [|v' c L IH]; [apply La_more, La_none|apply La_more, IH].
  Qed.

  (** Layers around a value of an item type whose innermost type may be nested. *)
  Lemma good_layered e u v b : good false e v b -> chain (transparent reg) e u -> nontransparent u -> nestable reg u ->
    forall v', layered v v' -> yields v' e b.
  Proof.
    intros [Y (u' & Hu & NT & CH & SK & PY)] CH' NT' NE v' L. rewrite (chain_end_fun _ _ _ CH NT CH' NT') in *. clear CH NT.
    inversion CH' as [|? e' ? Tr CH'']; subst; [apply PY; assumption|].
    destruct L as [|v' ctx L]; [exact Y|]. eapply wrapper_yields; [exact SK|eauto|exact Hu|apply PY; assumption].
  Qed.
  Lemma layered_one (v : value C) ctx w : layered (Val (DComposite (Unnamed [v])) ctx) w -> layered v w.
  Proof. induction 1 as [|w c L IH]; [apply La_more, La_none|apply La_more, IH]. Qed.

  (** Of a definite item type the innermost type may be nested. *)
  Lemma stops_end q : stops reg q -> nontransparent q.
  Proof. intros H w Tr. apply (H w), W_one. destruct Tr as [a b R|a b R]; [eapply W_struct; exact R|apply W_tuple; exact R]. Qed.
  Lemma definite_end e q : chain (wraps1 reg) e q -> atom reg q \/ record reg q ->
    exists u, chain (transparent reg) e u /\ nontransparent u /\ nestable reg u.
  Proof.
    intros CH HQ. assert (ST : stops reg q) by (destruct HQ; [apply atom_stops|apply record_stops]; assumption).
    induction CH as [q|e e' q W CH IH].
    - exists q. split; [constructor|]. split; [apply stops_end, ST|]. apply N_other. intro e. split; intro R.
      + destruct HQ as [A|RQ]; [unfold atom in A; rewrite R in A; exact A|]. destruct RQ as [t fs1 nm a fs2 p R'|t ts1 a ts2 p R'|t a n p R']; rewrite R in R'; discriminate.
      + apply (ST e), W_array, R.
    - destruct (IH HQ ST) as (u & H1 & H2 & H3). destruct W as [t0 [name|] t' R|t0 t' R].
      + exists t0. split; [constructor|]. split.
        * intros w Tr. inversion Tr as [? ? R'|? ? R']; rewrite R in R'; discriminate.
        * apply N_other. intro e. rewrite R. split; discriminate.
      + exists u. split; [eapply Ch_step; [apply Tr_struct; exact R|exact H1]|auto].
      + exists u. split; [eapply Ch_step; [apply Tr_tuple; exact R|exact H1]|auto].
  Qed.

  (** Sequences. *)
  Lemma sequence_layers t e vs ctx pre bs : reg t = ResTy (TSequence e) -> compact_enc (N.of_nat (length vs)) pre ->
    ENCS false (repeat e (length vs)) vs bs -> parts (good false) (repeat e (length vs)) vs bs ->
    yields (Val (DComposite (Unnamed vs)) ctx) t (pre ++ bs) -> nestable reg t ->
    forall v', layered (Val (DComposite (Unnamed vs)) ctx) v' -> yields v' t (pre ++ bs).
  Proof.
    intros R HC ES HP Y NE. inversion NE as [? H|? ? ? R'|? e' R' DF]; subst; try congruence; [exfalso; apply (proj1 (H e)); exact R|].
    rewrite R in R'. injection R' as <-. destruct DF as (q & CH & HQ).
    assert (FT : forall F, find_single reg (S F) t false = Some (t, false)) by (intro F; cbn [find_single]; rewrite R; reflexivity).
    intros v' L. induction L as [|w cw L IH]; [exact Y|].
    destruct (Nat.eq_dec (length vs) 1) as [L1|L1].
    - destruct vs as [|v [|? ?]]; try discriminate. cbn [length repeat] in *. inversion HP as [|? ? ? ? b bs' G HN]; subst. inversion HN; subst.
      destruct (definite_end e q CH HQ) as (u & H1 & H2 & H3).
      destruct (good_layered e u v b G H1 H2 H3 w (layered_one _ _ _ L)) as [F0 H].
      apply composite_yields. exists F0. intros F HF. unfold do_encode. rewrite R. cbn [composite_map map values clen length snd encode_all].
      rewrite H by exact HF. cbn [andthen app]. rewrite app_nil_r. change (N.of_nat 1 mod 2 ^ 32) with 1.
      change 1 with (N.of_nat 1). rewrite (compact_enc_fun _ _ HC). reflexivity.
    - assert (RJ : rejected reg X w e).
      { eapply (layered_rejected reg X vs ctx q L1); [|exact L|exact CH]. destruct HQ as [A|RQ]; [left; exact A|right]. split; [exact RQ|].
        clear -ES CH RQ. revert bs ES. induction vs as [|v vs IH]; intros bs ES; [constructor|]. cbn [length repeat] in ES.
        inversion ES as [|? ? ? ? ? b bs' E ES']; subst. constructor; [eapply record_wide; eassumption|eapply IH; exact ES']. }
      destruct RJ as [F1 H1]. destruct IH as [F2 H2]. exists (S (Nat.max F1 F2)). intros F HF out. cbn [encode]. unfold encode_composite.
      destruct F as [|F]; [lia|]. rewrite FT. unfold do_encode. rewrite R. cbn [composite_map map values clen length snd encode_all].
      match goal with |- context [encode reg X (S F) w e ?o] => destruct (H1 (S F) ltac:(lia) o) as [er E]; destruct (encode reg X (S F) w e o) as [s o'] end.
      cbn [fst] in E. subst s. cbn [andthen]. rewrite H2 by lia. reflexivity.
  Qed.
  (** Arrays of length one. *)
  Lemma array_layers t e vs ctx bs : reg t = ResTy (TArray e (N.of_nat (length vs))) -> parts (good false) (repeat e (length vs)) vs bs ->
    nontransparent t -> yields (Val (DComposite (Unnamed vs)) ctx) t bs -> nestable reg t ->
    forall v', layered (Val (DComposite (Unnamed vs)) ctx) v' -> yields v' t bs.
  Proof.
    intros R HP NT Y NE. destruct (Nat.eq_dec (length vs) 1) as [L1|L1].
    - destruct vs as [|v [|? ?]]; try discriminate. cbn [length repeat] in *. inversion HP as [|? ? ? ? b bs' G HN]; subst. inversion HN; subst. rewrite app_nil_r in *.
      inversion NE as [? H|? e' u' R' CH NT' NE'|? e' R']; subst; try congruence; [exfalso; apply (proj2 (H e)); exact R|].
      rewrite R in R'. injection R' as <-. intros v' L. destruct L as [|w cw L]; [exact Y|].
      destruct (good_layered e u' v b G CH NT' NE' w (layered_one _ _ _ L)) as [F0 H].
      apply composite_yields. exists F0. intros F HF. unfold do_encode. rewrite R. cbn [composite_map map values clen length snd encode_all].
      rewrite N.eqb_refl. rewrite H by exact HF. reflexivity.
    - intros v' L. induction L as [|w cw L IH]; [exact Y|]. apply peel_yields; [exact NT| |exact IH].
      eapply peelable_other; [exact R|]. cbn beta iota. lia.
  Qed.

  Lemma compact_good cmp T0 t0 x ctx bs : reg T0 = ResTy (TCompact t0) -> values cmp = [x] -> yields x T0 bs ->
    yields (Val (DComposite cmp) ctx) T0 bs.
  Proof.
    intros R E [F0 H]. apply composite_yields. exists F0. intros F HF. unfold do_encode. rewrite R, values_map, E. cbn [map snd].
    rewrite H by exact HF. reflexivity.
  Qed.

  Lemma nontransp_other t ty : reg t = ResTy ty -> match ty with TComposite _ | TTuple _ => False | _ => True end -> nontransparent t.
  Proof. intros R Hty w Hw. inversion Hw as [? ? R'|? ? R']; subst; rewrite R in R'; injection R' as ->; exact Hty. Qed.

  Lemma leaf_yields t ty f bs v : reg t = ResTy ty -> match ty with TPrim _ | TBitSeq _ _ => True | _ => False end -> f ty = Some bs ->
    (forall F t out, encode reg X F v t out = encode_leaf reg F f t out) -> yields v t bs.
  Proof.
    intros R Hty Hf HE. exists 1%nat. intros [|F] HF out; [lia|]. rewrite HE. unfold encode_leaf. cbn [find_single]. rewrite R.
    destruct ty; try contradiction; rewrite R, Hf; reflexivity.
  Qed.

  Lemma number_yields t p z bs v : reg t = ResTy (TPrim p) ->
    match p with
    | PtU w => in_unsigned w z = true /\ bs = le_bytes (wbytes w) (Z.to_N z)
    | PtI w => in_signed w z = true /\ bs = le_bytes (wbytes w) (Z.to_N (z mod 2 ^ Z.of_N (wbits w)))
    | _ => False
    end -> (forall F t out, encode reg X F v t out = encode_number reg F z t out) -> yields v t bs.
  Proof.
    intros R Hp HE. exists 1%nat. intros [|F] HF out; [lia|]. rewrite HE. unfold encode_number. cbn [find_single]. rewrite R, R.
    destruct p; try contradiction; destruct Hp as [-> ->]; reflexivity.
  Qed.

  Lemma lt_in_unsigned w n : n < 2 ^ wbits w -> in_unsigned w (Z.of_N n) = true.
  Proof.
    intro H. unfold in_unsigned. assert (E : Z.of_N (2 ^ wbits w) = (2 ^ Z.of_N (wbits w))%Z) by (rewrite N2Z.inj_pow; reflexivity). lia.
  Qed.

  Lemma prim_yields t p x bs : reg t = ResTy (TPrim p) -> prim_enc 32 PU256 p x bs -> yields (Val (DPrim x) (ctxf t)) t bs.
  Proof.
    intros R HP. destruct HP as [| |c bs Hc HL|s pre Hs Hl HC|w n bs HL|w z bs Hz HL|bs HB HL|bs HB HL]; same_sizes.
    - eapply leaf_yields; [exact R|exact I| |reflexivity]. reflexivity.
    - eapply leaf_yields; [exact R|exact I| |reflexivity]. reflexivity.
    - exists 1%nat. intros [|F] HF out; [lia|]. cbn [encode encode_primitive]. unfold encode_char. cbn [find_single]. rewrite R, R.
      rewrite (rt_char reg X RT t R). apply le_enc_iff in HL as [-> _]. reflexivity.
    - eapply leaf_yields; [exact R|exact I| |reflexivity]. cbn beta iota. rewrite mod32 by exact Hl.
      rewrite <- (compact_enc_fun _ _ HC). reflexivity.
    - apply le_enc_iff in HL as [-> HL]. rewrite <- wbits_pow in HL. eapply (number_yields t _ (Z.of_N n)); [exact R| |reflexivity].
      cbn beta iota. rewrite N2Z.id. split; [apply lt_in_unsigned, HL|reflexivity].
    - apply le_enc_iff in HL as [-> HL]. eapply (number_yields t _ z); [exact R| |reflexivity].
      cbn beta iota. split; [unfold in_signed; lia|reflexivity].
    - exists 1%nat. intros [|F] HF out; [lia|]. cbn [encode encode_primitive encode_byte_array]. rewrite R.
      rewrite (rt_256 reg X RT t) by auto. reflexivity.
    - exists 1%nat. intros [|F] HF out; [lia|]. cbn [encode encode_primitive encode_byte_array]. rewrite R.
      rewrite (rt_256 reg X RT t) by auto. reflexivity.
  Qed.

  Lemma single_transparent_dec t fs : reg t = ResTy (TComposite fs) -> (exists t', fs = [(None, t')] /\ transparent reg t t') \/ nontransparent t.
  Proof.
    intro R. destruct fs as [|[[n|] t'] [|f fs]]; try (right; intros w Hw; inversion Hw as [? ? R'|? ? R']; rewrite R in R'; discriminate).
    left. exists t'. split; [reflexivity|apply Tr_struct, R].
  Qed.

  Lemma find_name_app (l1 l2 : list (vinfo TId)) v : ~ In (vi_name v) (map vi_name l1) ->
    find (fun u => str_eqb (vi_name u) (vi_name v)) (l1 ++ v :: l2) = Some v.
  Proof.
    induction l1 as [|u l1 IH]; cbn [app find map]; intro H.
    - rewrite str_eqb_refl. reflexivity.
    - destruct (str_eqb (vi_name u) (vi_name v)) eqn:E.
      + exfalso. apply H. left. apply str_eqb_eq. exact E.
      + apply IH. intro; apply H; right; assumption.
  Qed.

  Lemma parts_yl ts vs bs : parts (good false) ts vs bs -> parts yl ts vs bs.
  Proof. apply parts_impl. intros t v b [Y _]. exact Y. Qed.

  Lemma complete_mut : (forall c t v bs, ENC c t v bs -> good c t v bs) /\ (forall c ts vs bs, ENCS c ts vs bs -> parts (good c) ts vs bs).
  Proof.
    apply enc_encs_ind.
    - intros t p x bs R HP. apply good_plain; [eauto|eapply nontransp_other; [exact R|exact I]|eapply peelable_other; [exact R|exact I]|]. eapply prim_yields; eauto.
    - intros t w n bs R Hn HC T0 t0 R0 CH. destruct (find_wraps1 _ _ _ CH R) as [F0 HF0].
      exists (S F0). intros [|F] HF out; [lia|]. cbn [encode encode_primitive]. unfold encode_number.
      replace (find_single reg (S F) T0 false) with (Some (T0, false)) by (cbn [find_single]; rewrite R0; reflexivity). rewrite R0.
      destruct (HF0 (S F) ltac:(lia) false) as [d ->]. rewrite R, (lt_in_unsigned w n Hn), N2Z.id, (compact_enc_fun _ _ HC). reflexivity.
    - intros c t t' v bs R _ IH. cbn [good] in IH. destruct c.
      + intros T0 t0 R0 CH. exfalso. eapply (rt_compact reg X RT); eassumption.
      + apply good_plain; [eauto|eapply nontransp_other; [exact R|exact I]|eapply peelable_other; [exact R|exact I]|]. eapply IH; [exact R|constructor].
    - intros c t fs vs cmp bs R HC _ IH Sh. destruct c.
      + intros T0 t0 R0 CH. specialize (HC eq_refl). destruct fs as [|[n t'] [|]]; try discriminate. cbn [map snd fst] in *.
        inversion IH as [|? ? x ? b bs' Hx Hnil]; subst. inversion Hnil; subst. rewrite app_nil_r.
        eapply compact_good; [exact R0| |eapply Hx; [exact R0|]].
        * inversion Sh as [kvs Hne E1 E2 E3|]; subst; [reflexivity|reflexivity].
        * eapply chain_snoc; [exact CH|]. eapply W_struct; exact R.
      + destruct (single_transparent_dec t fs R) as [(t' & -> & Tr)|NT].
        * cbn [map snd fst] in *. inversion IH as [|? ? x ? b bs' Hx Hnil]; subst. inversion Hnil; subst. rewrite app_nil_r.
          inversion Sh as [kvs Hne E1 E2 E3|names vs' HL Hn E1 E2 E3]; subst.
          -- destruct kvs as [|? [|]]; discriminate.
          -- eapply good_wrapper; eassumption.
        * apply good_plain; [eauto|exact NT|eapply peelable_other; [exact R|exact I]|]. eapply struct_yields; [exact R|exact NT|apply parts_yl; exact IH|exact Sh].
    - intros c t ts vs bs R HC _ IH. destruct c.
      + intros T0 t0 R0 CH. specialize (HC eq_refl). destruct ts as [|t' [|]]; try discriminate.
        inversion IH as [|? ? x ? b bs' Hx Hnil]; subst. inversion Hnil; subst. rewrite app_nil_r.
        eapply compact_good; [exact R0|reflexivity|eapply Hx; [exact R0|]]. eapply chain_snoc; [exact CH|]. apply W_tuple; exact R.
      + assert (D : (exists t', ts = [t']) \/ nontransparent t).
        { destruct ts as [|t' [|]]; try (right; intros w Hw; inversion Hw as [? ? R'|? ? R']; rewrite R in R'; discriminate). left; eauto. }
        destruct D as [[t' ->]|NT].
        * inversion IH as [|? ? x ? b bs' Hx Hnil]; subst. inversion Hnil; subst. rewrite app_nil_r. eapply good_wrapper; [apply Tr_tuple; exact R|exact Hx].
        * apply good_plain; [eauto|exact NT|eapply peelable_other; [exact R|exact I]|]. eapply tuple_yields; [exact R|exact NT|apply parts_yl; exact IH].
    - intros t l1 name idx fs l2 vs cmp bs R Hn Hi _ IH Sh.
      assert (NT : nontransparent t) by (eapply nontransp_other; [exact R|exact I]). apply good_plain; [eauto|exact NT|eapply peelable_other; [exact R|exact I]|].
      destruct (rt_variants reg X RT t _ R) as [ND NO]. rewrite Forall_forall in NO.
      specialize (NO (VInfo name idx fs) ltac:(apply in_or_app; right; left; reflexivity)). cbn [vi_fields] in NO.
      destruct (fields_yields fs vs cmp bs NO (parts_yl _ _ _ IH) Sh) as [F0 H]. exists (S F0). intros F HF out. cbn [encode]. unfold encode_variant.
      rewrite skip_nontransparent by (auto; lia). rewrite R.
      assert (FD : find (fun u => str_eqb (vi_name u) name) (l1 ++ VInfo name idx fs :: l2) = Some (VInfo name idx fs)).
      { apply (find_name_app l1 l2 (VInfo name idx fs)). rewrite map_app in ND. cbn [map] in ND. apply NoDup_remove_2 in ND.
        intro Hin. apply ND, in_or_app. left. exact Hin. }
      rewrite FD, composite_map_snd. cbn [vi_fields vi_index]. rewrite H by lia. rewrite <- app_assoc. reflexivity.
    - intros t t' vs pre bs R HL HC ES IH.
      assert (Y : yields (Val (DComposite (Unnamed vs)) (ctxf t)) t (pre ++ bs)).
      { destruct (all_yields _ _ _ (parts_yl _ _ _ IH)) as [F0 H]. apply composite_yields. exists F0. intros F HF. unfold do_encode. rewrite R.
        rewrite clen_values, values_map, map_length, map_map. cbn [values snd]. rewrite mod32 by exact HL.
        rewrite H by exact HF. cbn [app]. rewrite (compact_enc_fun _ _ HC). reflexivity. }
      apply good_layers; [eauto|eapply nontransp_other; [exact R|exact I]|exact Y|]. eapply sequence_layers; eassumption.
    - intros t t' n vs bs R HL ES IH. assert (NT : nontransparent t) by (eapply nontransp_other; [exact R|exact I]).
      assert (Y : yields (Val (DComposite (Unnamed vs)) (ctxf t)) t bs).
      { destruct (all_yields _ _ _ (parts_yl _ _ _ IH)) as [F0 H]. apply composite_yields. exists F0. intros F HF. unfold do_encode. rewrite R.
        rewrite clen_values, values_map, map_length, map_map. cbn [values snd]. rewrite HL, N.eqb_refl. rewrite H by exact HF. reflexivity. }
      apply good_layers; [eauto|exact NT|exact Y|]. subst n. eapply array_layers; eassumption.
    - intros t st o b pre bs R Hl Hm HC HP. apply good_plain; [eauto|eapply nontransp_other; [exact R|exact I]|eapply peelable_other; [exact R|exact I]|].
      eapply leaf_yields; [exact R|exact I| |reflexivity]. cbn beta iota. unfold encode_bits. rewrite mod32 by exact Hl.
      rewrite <- (compact_enc_fun _ _ HC), <- (payload_strict_fun _ _ _ _ HP). reflexivity.
    - intro c. constructor.
    - intros c t ts v vs b bs _ H1 _ H2. constructor; assumption.
  Qed.

  Theorem encode_complete t v bs : ENC false t v bs -> yields v t bs.
  Proof. intro H. apply (proj1 complete_mut) in H. apply H. Qed.
End Complete.
