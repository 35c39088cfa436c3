(** * EncodeTerm: when encoding terminates (C31). *)
From Verif Require Import Base Value ValueFacts Registry Spec_Scale Scale Encode EncodeFacts Spec_Encode.
Open Scope N_scope.

Section Term.
  Context {TId : Type} (reg : TId -> resolution TId) (X : ext).

  Definition nohang (g : nat -> bytes -> eres) : Prop := exists F0, forall F, (F0 <= F)%nat -> forall out, fst (g F out) <> SHang.
  Definition total (e : nat -> encoder (TId:=TId)) : Prop := forall t, nohang (fun F => e F t).

  Lemma nohang_const s f : s <> SHang -> nohang (fun _ out => (s, f out)).
  Proof. intro H. exists 0%nat. intros; exact H. Qed.
  Lemma nohang_andthen g k : nohang g -> nohang k -> nohang (fun F out => andthen (g F out) (k F)).
  Proof.
    intros [F1 H1] [F2 H2]. exists (Nat.max F1 F2). intros F HF out. specialize (H1 F ltac:(lia) out). destruct (g F out) as [[| |] o]; cbn [andthen fst] in *; auto.
    apply H2. lia.
  Qed.

  Section WF.
    Context (WF : forall t, Acc (fun t' t => wraps reg t t') t).

    Lemma find_single_total t : forall c, exists F0 r, forall F, (F0 <= F)%nat -> find_single reg F t c = Some r.
    Proof.
      induction (WF t) as [t _ IH]. intro c.
      assert (Stop : (forall F, find_single reg (S F) t c = Some (t, c)) -> exists F0 r, forall F, (F0 <= F)%nat -> find_single reg F t c = Some r).
      { intro H. exists 1%nat, (t, c). intros [|F] HF; [lia|]. apply H. }
      assert (Step : forall t', wraps reg t t' -> (forall F, find_single reg (S F) t c = find_single reg F t' true) ->
                exists F0 r, forall F, (F0 <= F)%nat -> find_single reg F t c = Some r).
      { intros t' W H. destruct (IH t' W true) as (F0 & r & H0). exists (S F0), r. intros [|F] HF; [lia|]. rewrite H. apply H0. lia. }
      destruct (reg t) as [| |[fs|vs|t'|t' n|ts|p|t'|st o]] eqn:R; try (apply Stop; intro F; cbn [find_single]; rewrite R; reflexivity).
      - destruct fs as [|[nm t'] [|]]; try (apply Stop; intro F; cbn [find_single]; rewrite R; reflexivity).
        apply (Step t'); [apply W_one; eapply W_struct; exact R|]. intro F. cbn [find_single]. rewrite R. reflexivity.
      - destruct (N.eqb_spec n 1) as [->|Hn].
        + apply (Step t'); [apply W_array; exact R|]. intro F. cbn [find_single]. rewrite R. reflexivity.
        + apply Stop. intro F. cbn [find_single]. rewrite R. destruct (N.eqb_spec n 1); [contradiction|reflexivity].
      - destruct ts as [|t' [|]]; try (apply Stop; intro F; cbn [find_single]; rewrite R; reflexivity).
        apply (Step t'); [apply W_one, W_tuple; exact R|]. intro F. cbn [find_single]. rewrite R. reflexivity.
    Qed.
    Lemma skip_through_total t : exists F0 r, forall F, (F0 <= F)%nat -> skip_through reg F t = Some r.
    Proof.
      induction (WF t) as [t _ IH].
      assert (Stop : (forall F, skip_through reg (S F) t = Some t) -> exists F0 r, forall F, (F0 <= F)%nat -> skip_through reg F t = Some r).
      { intro H. exists 1%nat, t. intros [|F] HF; [lia|]. apply H. }
      assert (Step : forall t', wraps reg t t' -> (forall F, skip_through reg (S F) t = skip_through reg F t') ->
                exists F0 r, forall F, (F0 <= F)%nat -> skip_through reg F t = Some r).
      { intros t' W H. destruct (IH t' W) as (F0 & r & H0). exists (S F0), r. intros [|F] HF; [lia|]. rewrite H. apply H0. lia. }
      destruct (reg t) as [| |[fs|vs|t'|t' n|ts|p|t'|st o]] eqn:R; try (apply Stop; intro F; cbn [skip_through]; rewrite R; reflexivity).
      - destruct fs as [|[[nm|] t'] [|]]; try (apply Stop; intro F; cbn [skip_through]; rewrite R; reflexivity).
        apply (Step t'); [apply W_one; eapply W_struct; exact R|]. intro F. cbn [skip_through]. rewrite R. reflexivity.
      - destruct ts as [|t' [|]]; try (apply Stop; intro F; cbn [skip_through]; rewrite R; reflexivity).
        apply (Step t'); [apply W_one, W_tuple; exact R|]. intro F. cbn [skip_through]. rewrite R. reflexivity.
    Qed.

    Ltac fin := cbn [fst]; discriminate.

    Lemma encode_number_total z : total (fun F => encode_number reg F z).
    Proof.
      intro t. destruct (find_single_total t false) as (F0 & [t1 d] & H). unfold encode_number.
      destruct (reg t1) as [| |[fs|vs|t'|t' n|ts|p|t2|st o]] eqn:R; try (exists F0; intros F HF out; rewrite (H F HF), R; fin).
      - exists F0; intros F HF out; rewrite (H F HF), R. destruct p; try fin; [destruct (in_unsigned _ _)|destruct (in_signed _ _)]; fin.
      - destruct (find_single_total t2 false) as (F1 & [t3 d'] & H1). exists (Nat.max F0 F1). intros F HF out. rewrite (H F ltac:(lia)), R, (H1 F ltac:(lia)).
        destruct (reg t3) as [| |[| | | | |[]| |]]; try fin. destruct (in_unsigned _ _); fin.
    Qed.
    Lemma encode_leaf_total f : total (fun F => encode_leaf reg F f).
    Proof.
      intro t. destruct (find_single_total t false) as (F0 & [t1 d] & H). exists F0. intros F HF out. unfold encode_leaf. rewrite (H F HF).
      destruct (reg t1) as [| |ty]; try fin. destruct (f ty); fin.
    Qed.
    Lemma encode_char_total c : total (fun F => encode_char reg X F c).
    Proof.
      intro t. destruct (find_single_total t false) as (F0 & [t1 d] & H). destruct (encode_number_total (Z.of_N c) t) as [F1 H1].
      exists (Nat.max F0 F1). intros F HF out. unfold encode_char. rewrite (H F ltac:(lia)).
      destruct (reg t1) as [| |[| | | | |[]| |]]; try (apply H1; lia). destruct (x_char X); fin.
    Qed.
    Lemma encode_all_total (es : list (nat -> encoder)) : Forall total es -> forall t, nohang (fun F => encode_all (map (fun e => e F) es) t).
    Proof.
      induction 1 as [|e es He _ IH]; intro t; [apply (nohang_const SOk (fun o => o)); discriminate|].
      apply (nohang_andthen (fun F => e F t) (fun F => encode_all (map (fun e => e F) es) t)); auto.
    Qed.
    Lemma encode_byte_array_total b : total (fun F => encode_byte_array reg X F F b).
    Proof.
      assert (AL : forall t, nohang (fun F => encode_all (map (fun x => encode_number reg F (Z.of_N x)) b) t)).
      { intro t. pose proof (encode_all_total (map (fun x F => encode_number reg F (Z.of_N x)) b)) as H.
        destruct (H ltac:(apply Forall_map, Forall_forall; intros; apply encode_number_total) t) as [F0 HF0]. exists F0. intros F HF out.
        specialize (HF0 F HF out). rewrite map_map in HF0. exact HF0. }
      enough (G : forall t, exists F0, forall F f, (F0 <= F)%nat -> (F0 <= f)%nat -> forall out, fst (encode_byte_array reg X F f b t out) <> SHang).
      { intro t. destruct (G t) as [F0 H]. exists F0. intros F HF out. apply H; assumption. }
      intro t. induction (WF t) as [t _ IH]. destruct (reg t) as [| |[fs|vs|t'|t' n|ts|p|t'|st o]] eqn:R;
        try (exists 1%nat; intros F [|f] HF Hf out; [lia|]; cbn [encode_byte_array]; rewrite R; fin).
      - destruct fs as [|[nm t'] [|]]; try (exists 1%nat; intros F [|f] HF Hf out; [lia|]; cbn [encode_byte_array]; rewrite R; fin).
        destruct (IH t' ltac:(apply W_one; eapply W_struct; exact R)) as [F0 H]. exists (S F0). intros F [|f] HF Hf out; [lia|]. cbn [encode_byte_array]. rewrite R.
        apply H; lia.
      - destruct (AL t') as [F0 H]. exists (S F0). intros F [|f] HF Hf out; [lia|]. cbn [encode_byte_array]. rewrite R. apply H. lia.
      - destruct (AL t') as [F0 H]. exists (S F0). intros F [|f] HF Hf out; [lia|]. cbn [encode_byte_array]. rewrite R. destruct (_ =? n); [|fin]. apply H. lia.
      - destruct ts as [|t' [|]]; try (exists 1%nat; intros F [|f] HF Hf out; [lia|]; cbn [encode_byte_array]; rewrite R; fin).
        destruct (IH t' ltac:(apply W_one; eapply W_tuple; exact R)) as [F0 H]. exists (S F0). intros F [|f] HF Hf out; [lia|]. cbn [encode_byte_array]. rewrite R.
        apply H; lia.
      - exists 1%nat; intros F [|f] HF Hf out; [lia|]; cbn [encode_byte_array]; rewrite R. destruct p; try fin; destruct (x_256 X); fin.
    Qed.
    Lemma encode_primitive_total p : total (fun F => encode_primitive reg X F p).
    Proof.
      destruct p; cbn [encode_primitive].
      - apply encode_leaf_total.
      - apply encode_char_total.
      - apply encode_leaf_total.
      - apply encode_number_total.
      - apply encode_number_total.
      - apply encode_byte_array_total.
      - apply encode_byte_array_total.
    Qed.

    (** Source fields with their encoders. *)
    Definition at_fuel (F : nat) (src : list (option str * (nat -> encoder (TId:=TId)))) : list (option str * encoder) := map (fun x => (fst x, snd x F)) src.

    Lemma lookup_at name src : (forall F, lookup_last name (at_fuel F src) = None) \/
      exists e, In e (map snd src) /\ forall F, lookup_last name (at_fuel F src) = Some (e F).
    Proof.
      induction src as [|[n e] src IH]; [left; reflexivity|]. cbn [at_fuel map lookup_last]. destruct IH as [IH|(e' & Hin & IH)].
      - destruct (str_eqb (key_of (n, e)) name) eqn:K.
        + right. exists e. split; [left; reflexivity|]. intro F. unfold at_fuel in IH. rewrite IH. change (key_of (fst (n, e), snd (n, e) F)) with (key_of (n, e)). rewrite K. reflexivity.
        + left. intro F. unfold at_fuel in IH. rewrite IH. change (key_of (fst (n, e), snd (n, e) F)) with (key_of (n, e)). rewrite K. reflexivity.
      - right. exists e'. split; [right; exact Hin|]. intro F. unfold at_fuel in IH. rewrite IH. reflexivity.
    Qed.
    Lemma encode_fields_total src fs : Forall total (map snd src) -> nohang (fun F => encode_fields (at_fuel F src) fs).
    Proof.
      intro HS.
      assert (N : forall F, existsb named_field (at_fuel F src) = existsb named_field src).
      { intro F. unfold at_fuel. clear HS. induction src as [|[n e] src IH]; [reflexivity|]. cbn [map existsb]. rewrite IH. reflexivity. }
      assert (L : forall F, length (at_fuel F src) = length src) by (intro F; apply map_length).
      assert (BN : nohang (fun F => encode_by_name (at_fuel F src) fs)).
      { induction fs as [|fd fs IH]; [apply (nohang_const SOk (fun o => o)); discriminate|]. cbn [encode_by_name].
        destruct (lookup_at (key_of fd) src) as [E|(e & Hin & E)].
        - exists 0%nat. intros F _ out. rewrite E. discriminate.
        - rewrite Forall_forall in HS. destruct (nohang_andthen (fun F => e F (snd fd)) (fun F => encode_by_name (at_fuel F src) fs) (HS e Hin (snd fd)) IH) as [F0 H].
          exists F0. intros F HF out. rewrite E. apply H, HF. }
      assert (IO : nohang (fun F => encode_in_order (map snd (at_fuel F src)) (map snd fs))).
      { clear N L BN. revert fs. induction src as [|[n e] src IH]; intros [|fd fs]; try (apply (nohang_const SOk (fun o => o)); discriminate).
        cbn [map at_fuel encode_in_order snd]. inversion HS as [|? ? He HS']; subst.
        apply (nohang_andthen (fun F => e F (snd fd)) (fun F => encode_in_order (map snd (at_fuel F src)) (map snd fs)) (He (snd fd)) (IH HS' fs)). }
      unfold encode_fields. destruct (existsb named_field fs && existsb named_field src) eqn:E.
      - destruct BN as [F0 H]. exists F0. intros F HF out. rewrite N, E. apply H, HF.
      - destruct (length fs =? length src)%nat eqn:EL.
        + destruct IO as [F0 H]. exists F0. intros F HF out. rewrite N, E, L, EL. apply H, HF.
        + exists 0%nat. intros F _ out. rewrite N, E, L, EL. discriminate.
    Qed.
    Lemma encode_struct_total src : Forall total (map snd src) -> total (fun F => encode_struct reg F (at_fuel F src)).
    Proof.
      intros HS t. destruct (skip_through_total t) as (F0 & t1 & SK).
      assert (FT : forall fs, nohang (fun F => encode_fields (at_fuel F src) fs)) by (intro; apply encode_fields_total, HS).
      assert (ONE : forall n e, src = [(n, e)] -> nohang (fun F => e F t1)) by (intros n e ->; inversion HS; subst; auto).
      enough (G : nohang (fun F out => match reg t1 with
        | ResErr => (SErr XTypeResolving, out)
        | ResTy (TComposite fs) => match at_fuel F src with [(None, e)] => e t1 out | _ => encode_fields (at_fuel F src) fs out end
        | ResTy (TTuple ts) => match at_fuel F src with [(_, e)] => e t1 out | _ => encode_fields (at_fuel F src) (map (fun t => (None, t)) ts) out end
        | _ => match at_fuel F src with [(_, e)] => e t1 out | _ => (SErr XWrongShape, out) end
        end)).
      { destruct G as [F1 H]. exists (Nat.max F0 F1). intros F HF out. unfold encode_struct. rewrite SK by lia. apply H. lia. }
      assert (OTHER : nohang (fun F out => match at_fuel F src with [(_, e)] => e t1 out | _ => (SErr XWrongShape, out) end)).
      { destruct src as [|[n e] [|]]; try (apply (nohang_const (SErr XWrongShape) (fun o => o)); discriminate). apply (ONE n e eq_refl). }
      destruct (reg t1) as [| |[fs|vs|t'|t' n|ts|p|t2|st o]]; try exact OTHER.
      - apply (nohang_const (SErr XTypeResolving) (fun o => o)). discriminate.
      - destruct src as [|[[n|] e] [|]]; try apply FT. apply (ONE None e eq_refl).
      - destruct src as [|[n e] [|]]; try apply FT. apply (ONE n e eq_refl).
    Qed.

    Section Items.
      Context {T : Type}.
      Definition citem : Type := (value T * (nat -> encoder (TId:=TId)))%type.
      Definition cat (F : nat) (c : composite citem) : composite (value T * encoder) := composite_map (fun x => (fst x, snd x F)) c.

      Lemma cat_values F c : map snd (values (cat F c)) = map (fun e => e F) (map snd (values c)).
      Proof. unfold cat. rewrite values_map, !map_map. reflexivity. Qed.
      Lemma cat_vals F c : values (cat F c) = map (fun x => (fst x, snd x F)) (values c).
      Proof. unfold cat. apply values_map. Qed.
      Lemma cat_source F c : source_fields (composite_map snd (cat F c)) = at_fuel F (source_fields (composite_map snd c)).
      Proof. unfold cat, at_fuel. destruct c as [l|l]; cbn [composite_map source_fields]; rewrite !map_map; reflexivity. Qed.

      Lemma source_total (c : composite citem) : Forall total (map snd (values c)) -> Forall total (map snd (source_fields (composite_map snd c))).
      Proof. intro H. rewrite source_fields_snd, values_map. exact H. Qed.

      Lemma do_encode_total (c : composite citem) : Forall total (map snd (values c)) -> total (fun F => do_encode reg F (cat F c)).
      Proof.
        intros HS t. unfold do_encode.
        assert (AL : forall t', nohang (fun F => encode_all (map snd (values (cat F c))) t')).
        { intro t'. destruct (encode_all_total _ HS t') as [F0 H]. exists F0. intros F HF out. rewrite cat_values. apply H, HF. }
        assert (ST : nohang (fun F => encode_struct reg F (source_fields (composite_map snd (cat F c))) t)).
        { destruct (encode_struct_total _ (source_total c HS) t) as [F0 H]. exists F0. intros F HF out. rewrite cat_source. apply H, HF. }
        assert (ONE : nohang (fun F out => match values (cat F c) with [x] => snd x t out | _ => (SErr XWrongShape, out) end)).
        { destruct (values c) as [|x [|y l]] eqn:E.
          - exists 0%nat. intros F _ out. rewrite cat_vals, E. discriminate.
          - inversion HS as [|? ? Hx _]; subst. destruct (Hx t) as [F0 H]. exists F0. intros F HF out. rewrite cat_vals, E. cbn [map snd]. apply H, HF.
          - exists 0%nat. intros F _ out. rewrite cat_vals, E. discriminate. }
        destruct (reg t) as [| |[fs|vs|t'|t' n|ts|p|t2|st o]]; try exact ONE; try exact ST.
        - apply (nohang_const (SErr XTypeResolving) (fun o => o)). discriminate.
        - destruct (AL t') as [F0 H]. exists F0. intros F HF out. apply H, HF.
        - destruct (AL t') as [F0 H]. exists F0. intros F HF out. destruct (_ =? n); [apply H, HF|discriminate].
        - exists 0%nat. intros F _ out. destruct (bits_of _); discriminate.
      Qed.

      Lemma encode_composite_total (c : composite citem) : Forall total (map snd (values c)) -> total (fun F => encode_composite reg F (cat F c)).
      Proof.
        intros HS t. destruct (do_encode_total c HS t) as [F1 H1]. destruct (find_single_total t false) as (F2 & [t' d] & FS).
        destruct (do_encode_total c HS t') as [F3 H3].
        assert (ONE : nohang (fun F out => match values (cat F c) with [x] => snd x t' out | _ => (SErr XWrongShape, out) end)).
        { destruct (values c) as [|x [|y l]] eqn:E.
          - exists 0%nat. intros F _ out. rewrite cat_vals, E. discriminate.
          - inversion HS as [|? ? Hx _]; subst. destruct (Hx t') as [F0 H]. exists F0. intros F HF out. rewrite cat_vals, E. cbn [map snd]. apply H, HF.
          - exists 0%nat. intros F _ out. rewrite cat_vals, E. discriminate. }
        destruct ONE as [F4 H4]. exists (Nat.max (Nat.max F1 F2) (Nat.max F3 F4)). intros F HF out. unfold encode_composite.
        specialize (H1 F ltac:(lia) []). specialize (H3 F ltac:(lia) []). specialize (H4 F ltac:(lia) []).
        destruct (do_encode reg F (cat F c) t []) as [[|err|] tmp]; cbn [fst] in *; try discriminate; try contradiction.
        rewrite (FS F ltac:(lia)).
        destruct d; [destruct (do_encode reg F (cat F c) t' []) as [[|e2|] tmp2]; cbn [fst] in *; try discriminate; try contradiction|];
          (destruct (values (cat F c)) as [|x [|y l]]; try discriminate; destruct (snd x t' []) as [[| |] ?]; cbn [fst] in *; try discriminate; contradiction).
      Qed.

      Lemma encode_variant_total name (c : composite citem) : Forall total (map snd (values c)) -> total (fun F => encode_variant reg F name (cat F c)).
      Proof.
        intros HS t. destruct (skip_through_total t) as (F0 & t1 & SK). unfold encode_variant.
        destruct (reg t1) as [| |[fs|vs|t'|t' n|ts|p|t2|st o]] eqn:R; try (exists F0; intros F HF out; rewrite (SK F HF), R; discriminate).
        destruct (find (fun v => str_eqb (vi_name v) name) vs) as [v|] eqn:FD; [|exists F0; intros F HF out; rewrite (SK F HF), R; cbn; rewrite FD; discriminate].
        destruct (encode_fields_total _ (vi_fields v) (source_total c HS)) as [F1 H]. exists (Nat.max F0 F1). intros F HF out.
        rewrite (SK F ltac:(lia)), R, FD, cat_source. apply H. lia.
      Qed.

      Theorem encode_total (v : value T) : total (fun F => encode reg X F v).
      Proof.
        induction v as [d ctx IH] using value_ind'.
        assert (HI : forall c, values c = children d -> Forall total (map snd (values (composite_map (fun x => (x, fun F => encode reg X F x)) c)))).
        { intros c E. rewrite values_map, map_map, E. cbn [snd]. apply Forall_map. exact IH. }
        destruct d as [c|n c|b|p]; intro t.
        - destruct (encode_composite_total (composite_map (fun x => (x, fun F => encode reg X F x)) c) (HI c eq_refl) t) as [F0 H].
          exists F0. intros F HF out. specialize (H F HF out). cbn [encode]. unfold cat in H.
          replace (composite_map (fun x => (x, encode reg X F x)) c) with
            (composite_map (fun x => (fst x, snd x F)) (composite_map (fun x => (x, fun F => encode reg X F x)) c)); [exact H|].
          destruct c; cbn [composite_map]; rewrite map_map; reflexivity.
        - destruct (encode_variant_total n (composite_map (fun x => (x, fun F => encode reg X F x)) c) (HI c eq_refl) t) as [F0 H].
          exists F0. intros F HF out. specialize (H F HF out). cbn [encode]. unfold cat in H.
          replace (composite_map (fun x => (x, encode reg X F x)) c) with
            (composite_map (fun x => (fst x, snd x F)) (composite_map (fun x => (x, fun F => encode reg X F x)) c)); [exact H|].
          destruct c; cbn [composite_map]; rewrite map_map; reflexivity.
        - apply (encode_leaf_total _ t).
        - apply (encode_primitive_total p t).
      Qed.
    End Items.
  End WF.

  (** ** Wrapper types that lead back to themselves *)
  Section Loop.
    Context (S : TId -> Prop) (HS : forall t, S t -> exists t', wraps reg t t' /\ S t').

    Lemma find_single_loops F : forall t c, S t -> find_single reg F t c = None.
    Proof.
      induction F as [|F IH]; intros t c Ht; [reflexivity|]. destruct (HS t Ht) as (t' & W & Ht'). cbn [find_single].
      destruct W as [? ? [? nm ? R|? ? R]|? ? R]; rewrite R; cbn [snd]; apply IH; exact Ht'.
    Qed.
    Lemma skip_through_stays F : forall t t1, S t -> skip_through reg F t = Some t1 -> S t1.
    Proof.
      induction F as [|F IH]; intros t t1 Ht H; [discriminate|]. destruct (HS t Ht) as (t' & W & Ht'). cbn [skip_through] in H.
      destruct W as [? ? [? [nm|] ? R|? ? R]|? ? R]; rewrite R in H; try (eapply IH; [|exact H]; exact Ht').
      - injection H as <-. exact Ht.
      - injection H as <-. exact Ht.
    Qed.
    Lemma S_reg t : S t -> exists t', S t' /\ ((exists nm, reg t = ResTy (TComposite [(nm, t')])) \/ reg t = ResTy (TTuple [t']) \/ reg t = ResTy (TArray t' 1)).
    Proof.
      intro Ht. destruct (HS t Ht) as (t' & W & Ht'). exists t'. split; [exact Ht'|]. destruct W as [? ? [? nm ? R|? ? R]|? ? R]; eauto.
    Qed.

    Definition never_ok (e : encoder (TId:=TId)) : Prop := forall t out, S t -> fst (e t out) <> SOk.

    Lemma prim_loops F p : match p with PU256 _ | PI256 _ => False | _ => True end -> forall t out, S t -> encode_primitive reg X F p t out = (SHang, out).
    Proof.
      intros Hp t out Ht. destruct p; try contradiction; cbn [encode_primitive]; unfold encode_bool, encode_str, encode_leaf, encode_char, encode_number;
        rewrite find_single_loops by exact Ht; reflexivity.
    Qed.
    Lemma byte_array_never F b : length b = 32%nat -> forall f, never_ok (encode_byte_array reg X F f b).
    Proof.
      intro HL. induction f as [|f IH]; intros t out Ht; [discriminate|]. destruct (S_reg t Ht) as (t' & Ht' & [[nm R]|[R|R]]); cbn [encode_byte_array]; rewrite R.
      - apply IH, Ht'.
      - apply IH, Ht'.
      - rewrite HL. discriminate.
    Qed.

    Lemma fields_never src nm t' out : Forall never_ok (map snd src) -> S t' -> fst (encode_fields src [(nm, t')] out) <> SOk.
    Proof.
      intros HN Ht'. unfold encode_fields. destruct (_ && _).
      - cbn [encode_by_name]. destruct (lookup_last _ src) as [e|] eqn:L; [|discriminate]. apply lookup_last_in in L. rewrite Forall_forall in HN.
        specialize (HN e L t' out Ht'). cbn [snd]. destruct (e t' out) as [[| |] o]; cbn [andthen fst] in *; congruence.
      - destruct (_ =? _)%nat eqn:EL; [|discriminate]. destruct src as [|[n e] src]; [discriminate|]. cbn [map snd encode_in_order].
        inversion HN as [|? ? He _]; subst. specialize (He t' out Ht'). cbn [snd] in *. destruct (e t' out) as [[| |] o]; cbn [andthen fst] in *; congruence.
    Qed.

    Lemma struct_never F src : Forall never_ok (map snd src) -> never_ok (encode_struct reg F src).
    Proof.
      intros HN t out Ht. unfold encode_struct. destruct (skip_through reg F t) as [t1|] eqn:SK; [|discriminate]. apply skip_through_stays in SK; [|exact Ht].
      assert (ONE : forall n e, src = [(n, e)] -> fst (e t1 out) <> SOk) by (intros n e ->; inversion HN; subst; auto).
      destruct (S_reg t1 SK) as (t' & Ht' & [[nm R]|[R|R]]); rewrite R; cbn [map].
      - destruct src as [|[[n|] e] [|]]; try (apply fields_never; assumption). apply (ONE None e eq_refl).
      - destruct src as [|[n e] [|]]; try (apply fields_never; assumption). apply (ONE n e eq_refl).
      - destruct src as [|[n e] [|]]; try discriminate. apply (ONE n e eq_refl).
    Qed.

    Section Items.
      Context {T : Type}.
      Lemma do_encode_never F (c : composite (value T * encoder)) : Forall never_ok (map snd (values c)) -> never_ok (do_encode reg F c).
      Proof.
        intros HN t out Ht. unfold do_encode.
        assert (ST : fst (encode_struct reg F (source_fields (composite_map snd c)) t out) <> SOk).
        { apply struct_never; [|exact Ht]. rewrite source_fields_snd, values_map. exact HN. }
        destruct (S_reg t Ht) as (t' & Ht' & [[nm R]|[R|R]]); rewrite R; try exact ST.
        rewrite clen_values. destruct (N.eqb_spec (N.of_nat (length (values c))) 1) as [E|]; [|discriminate].
        destruct (values c) as [|x [|]]; try (cbn in E; lia). cbn [map encode_all]. inversion HN as [|? ? Hx _]; subst. specialize (Hx t' out Ht').
        destruct (snd x t' out) as [[| |] o]; cbn [andthen fst] in *; congruence.
      Qed.
      Lemma composite_loops F (c : composite (value T * encoder)) : Forall never_ok (map snd (values c)) ->
        forall t out, S t -> encode_composite reg F c t out = (SHang, out).
      Proof.
        intros HN t out Ht. unfold encode_composite. pose proof (do_encode_never F c HN t [] Ht) as D.
        destruct (do_encode reg F c t []) as [[| |] tmp]; cbn [fst] in D; try contradiction; [|reflexivity].
        rewrite find_single_loops by exact Ht. reflexivity.
      Qed.

      Lemma encode_never F (v : value T) : all_nodes (fun d => match d with DPrim p => prim_wf p = true | _ => True end) v -> never_ok (encode reg X F v).
      Proof.
        induction v as [d ctx IH] using value_ind'. intro W. inversion W as [? ? Wd Wc]; subst.
        assert (HI : forall c, values c = children d -> Forall never_ok (map snd (values (composite_map (fun x => (x, encode reg X F x)) c)))).
        { intros c E. rewrite values_map, map_map, E. cbn [snd]. apply Forall_map. rewrite Forall_forall in *. intros x Hx. apply IH; auto. }
        destruct d as [c|n c|b|p]; intros t out Ht; cbn [encode].
        - rewrite (composite_loops F _ (HI c eq_refl) t out Ht). discriminate.
        - unfold encode_variant. destruct (skip_through reg F t) as [t1|] eqn:SK; [|discriminate]. apply skip_through_stays in SK; [|exact Ht].
          destruct (S_reg t1 SK) as (t' & Ht' & [[nm R]|[R|R]]); rewrite R; discriminate.
        - unfold encode_bitseq, encode_leaf. rewrite find_single_loops by exact Ht. discriminate.
        - destruct p; try (rewrite prim_loops by (auto; exact I); discriminate); cbn [encode_primitive]; (apply byte_array_never; [|exact Ht]);
            cbn in Wd; apply andb_true_iff in Wd as [Wd _]; apply Nat.eqb_eq in Wd; exact Wd.
      Qed.

      Theorem encode_loops F (v : value T) : all_nodes (fun d => match d with DPrim p => prim_wf p = true | _ => True end) v ->
        match vdef_of v with DVariant _ _ | DPrim (PU256 _) | DPrim (PI256 _) => False | _ => True end ->
        forall t out, S t -> encode reg X F v t out = (SHang, out).
      Proof.
        intros W Hv t out Ht. destruct v as [d ctx]. cbn [vdef_of] in Hv. inversion W as [? ? Wd Wc]; subst. destruct d as [c|n c|b|p]; try contradiction; cbn [encode].
        - apply composite_loops; [|exact Ht]. rewrite values_map, map_map. cbn [snd]. apply Forall_map. cbn [children] in Wc.
          rewrite Forall_forall in *. intros x Hx. apply encode_never, Wc, Hx.
        - unfold encode_bitseq, encode_leaf. rewrite find_single_loops by exact Ht. reflexivity.
        - apply prim_loops; [|exact Ht]. destruct p; try contradiction; exact I.
      Qed.
    End Items.
  End Loop.
End Term.
