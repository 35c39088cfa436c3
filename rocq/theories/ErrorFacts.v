(** * ErrorFacts: the kind of an encode error is true. *)
From Verif Require Import Base Value ValueFacts Registry Spec_Scale Scale Encode Spec_Encode Spec_Same EncodeCost Spec_Loc EncodeLoc EncodeFacts EncodeComplete EncodeSound EncodeMore LocFacts Spec_Errors.
Open Scope N_scope.

Section Honest.
  Context {TId T : Type} (reg : TId -> resolution TId) (X : ext) (F : nat).
  Notation chain := (chain).
  Notation just := (justified (T := T) reg X).

  Lemma chain_app (R : TId -> TId -> Prop) t u w : chain R t u -> chain R u w -> chain R t w.
  Proof. induction 1; intro H'; [exact H'|eapply Ch_step; eauto]. Qed.
  Lemma tr_wraps t u : transparent reg t u -> wraps reg t u.
  Proof. intros [a b H|a b H]; apply W_one; [eapply W_struct|eapply W_tuple]; exact H. Qed.
  Lemma chain_mono (R S : TId -> TId -> Prop) t u : (forall a b, R a b -> S a b) -> chain R t u -> chain S t u.
  Proof. intros H. induction 1; [constructor|eapply Ch_step; eauto]. Qed.
  Lemma w1_wraps t u : wraps1 reg t u -> wraps reg t u.
  Proof. apply W_one. Qed.

  Lemma find_single_chain f : forall t b u b', find_single reg f t b = Some (u, b') -> chain (wraps reg) t u.
  Proof.
    induction f as [|f IH]; intros t b u b' H; [discriminate|]. cbn [find_single] in H.
    destruct (reg t) as [| |[fs|vs|x|x n|ts|q|x|st od]] eqn:R; try (injection H as <- _; constructor; fail).
    - destruct fs as [|[k x] [|]]; try (injection H as <- _; constructor; fail).
      eapply Ch_step; [apply W_one; eapply W_struct; exact R|]. eapply IH, H.
    - destruct (N.eqb_spec n 1) as [->|]; [|injection H as <- _; constructor].
      eapply Ch_step; [eapply W_array; exact R|]. eapply IH, H.
    - destruct ts as [|x [|]]; try (injection H as <- _; constructor; fail).
      eapply Ch_step; [apply W_one; eapply W_tuple; exact R|]. eapply IH, H.
  Qed.

  Lemma number_just (v : value T) z t out e o : number_of v = Some z ->
    (forall ty : tydef TId, takes X ty (vdef_of v) -> match ty with TPrim (PtU _ | PtI _) | TCompact _ | TPrim PtChar => True | _ => False end) ->
    (forall u d, find_single reg F t false = Some (u, d) -> reg u = ResTy (TPrim PtChar) -> ~ takes X (TPrim PtChar : tydef TId) (vdef_of v)) ->
    encode_number reg F z t out = (SErr e, o) -> just v t e.
  Proof.
    intros Hz Ht Hc H. unfold encode_number in H. destruct (find_single reg F t false) as [[u d]|] eqn:E; [|discriminate].
    pose proof (find_single_chain _ _ _ _ _ E) as CH.
    assert (K : forall ty, reg u = ResTy ty -> match ty with TPrim (PtU _ | PtI _) | TCompact _ => False | _ => True end -> just v t XWrongShape).
    { intros ty R Hk. eapply Ju_kind; [exact CH|exact R|]. intro Tk. pose proof (Ht ty Tk) as Tk'.
      destruct ty as [fs|vs|x|x n|ts|[| | |w|w| |]|x|st od]; try contradiction.
      exact (Hc u d eq_refl R Tk). }
    destruct (reg u) as [| |[fs|vs|x|x n|ts|[| | |w|w| |]|x|st od]] eqn:R;
      try (injection H as <- _; first [eapply Ju_unresolvable; eassumption|eapply Ju_unknown; eassumption|eapply K; [reflexivity|exact I]]; fail).
    - destruct (in_unsigned w z) eqn:I; [discriminate|]. injection H as <- _. eapply Ju_range; try eassumption. cbn [out_of_range].
      unfold in_unsigned in I. apply andb_false_iff in I as [I|I]; lia.
    - destruct (in_signed w z) eqn:I; [discriminate|]. injection H as <- _. eapply Ju_range; try eassumption. cbn [out_of_range].
      unfold in_signed in I. apply andb_false_iff in I as [I|I]; lia.
    - destruct (find_single reg F x false) as [[u' d']|] eqn:E'; [|discriminate]. pose proof (find_single_chain _ _ _ _ _ E') as CH'.
      assert (K' : reg u' <> ResErr -> (forall w, reg u' <> ResTy (TPrim (PtU w))) -> just v t XWrongShape) by (intros; eapply Ju_kind_compact; eassumption).
      destruct (reg u') as [| |[fs|vs|y|y n|ts|[| | |w|w| |]|y|st od]] eqn:R';
        try (injection H as <- _; first [eapply Ju_unresolvable_compact; eassumption|apply K'; discriminate]; fail).
      destruct (in_unsigned w z) eqn:I; [discriminate|]. injection H as <- _. eapply Ju_range_compact; try eassumption. cbn [out_of_range].
      unfold in_unsigned in I. apply andb_false_iff in I as [I|I]; lia.
  Qed.

  Lemma leaf_just (v : value T) f t out e o : (forall ty, f ty = None -> ~ takes X ty (vdef_of v)) ->
    encode_leaf reg F f t out = (SErr e, o) -> just v t e.
  Proof.
    intros Hf H. unfold encode_leaf in H. destruct (find_single reg F t false) as [[u d]|] eqn:E; [|discriminate].
    pose proof (find_single_chain _ _ _ _ _ E) as CH. destruct (reg u) as [| |ty] eqn:R.
    - injection H as <- _. eapply Ju_unresolvable; eassumption.
    - injection H as <- _. eapply Ju_unknown; eassumption.
    - destruct (f ty) as [b|] eqn:Ef; [discriminate|]. injection H as <- _. eapply Ju_kind; eauto.
  Qed.

  Lemma all_not_here (es : list (loc * encoder_l (TId := TId))) t out e o : encode_all_l es t out <> ((SErr e, o), []).
  Proof. intro H. apply (all_err reg) in H as (i & l & enc & out' & o' & q & _ & H & _). discriminate. Qed.
  Lemma in_order_not_here (es : list (loc * encoder_l (TId := TId))) ts out e o : encode_in_order_l es ts out <> ((SErr e, o), []).
  Proof. intro H. apply in_order_err in H as (i & l & enc & t' & out' & o' & q & _ & _ & H & _). discriminate. Qed.
  Lemma lookup_none name (src : list (option str * encoder_l (TId := TId))) : lookup_last_l name src = None -> ~ In name (map key_of src).
  Proof.
    induction src as [|f src IH]; [auto|]. cbn [lookup_last_l map]. destruct (lookup_last_l name src); [discriminate|].
    destruct (str_eqb (key_of f) name) eqn:E; [discriminate|]. intros _ [H|H]; [|exact (IH eq_refl H)]. rewrite H in E.
    rewrite (proj2 (str_eqb_eq name name) eq_refl) in E. discriminate.
  Qed.
  Lemma by_name_here (src : list (option str * encoder_l (TId := TId))) fs : forall out e o, encode_by_name_l src fs out = ((SErr e, o), []) ->
    e = XMissingField /\ exists fd, In fd fs /\ ~ In (key_of fd) (map key_of src).
  Proof.
    induction fs as [|fd fs IH]; intros out e o H; [discriminate|]. cbn [encode_by_name_l] in H.
    destruct (lookup_last_l (key_of fd) src) as [enc|] eqn:L.
    - apply andthen_l_err in H as [H|(out' & _ & H)]; [apply at_loc_err in H as (q & H & _); discriminate|].
      apply IH in H as (H1 & fd' & H2 & H3). split; [exact H1|]. exists fd'. split; [now right|exact H3].
    - injection H as <- _. split; [reflexivity|]. exists fd. split; [now left|]. apply lookup_none. exact L.
  Qed.

  Lemma some_name_b {A} (fs : list (option str * A)) : existsb named_field fs = false -> ~ some_name fs.
  Proof.
    intros H (k & a & HI). assert (E : existsb named_field fs = true) by (apply existsb_exists; exists (Some k, a); split; [exact HI|reflexivity]). congruence.
  Qed.
  Lemma source_keys (l : list (str * encoder_l (TId := TId))) : map key_of (source_fields (Named l)) = map fst l.
  Proof. cbn [source_fields]. rewrite map_map. reflexivity. Qed.

  Lemma fields_just (v : value T) c t fs out e o : inside v = Some c -> has_fields reg t v fs ->
    encode_fields_l (source_fields (composite_map snd (composite_map (lpair reg X F) c))) fs out = ((SErr e, o), []) -> just v t e.
  Proof.
    intros HI HF H. unfold encode_fields_l in H. destruct (existsb named_field fs && existsb named_field _) eqn:B.
    - apply by_name_here in H as (-> & [k t'] & H1 & H2). apply andb_prop in B as [_ B].
      destruct c as [l|l]; [|exfalso; clear -B; cbn [composite_map source_fields] in B; rewrite !map_map in B;
        induction l as [|a l IH]; [discriminate|]; cbn [map existsb] in B; unfold named_field at 1 in B; cbn [fst orb] in B; auto].
      eapply Ju_missing; [exact HI|exact HF|exact H1|]. intro H3. apply H2. cbn [composite_map] in *. rewrite source_keys, !map_map. cbn [fst].
      exact H3.
    - destruct (_ =? _)%nat eqn:L; [exfalso; eapply in_order_not_here; exact H|]. injection H as <- _. apply Nat.eqb_neq in L.
      eapply Ju_fields; [exact HI|exact HF| |].
      + apply andb_false_iff in B as [B|B]; [left; apply some_name_b; exact B|right]. intros (kv & l & ->).
        cbn [composite_map source_fields map existsb] in B. discriminate.
      + intro E. apply L. rewrite <- E. destruct c as [l|l]; cbn [composite_map source_fields values]; rewrite !map_length; reflexivity.
  Qed.

  (** The error at the value itself, or at the only value in it. *)
  Definition honest (v : value T) (t : TId) (e : eerr) : Prop := exists w t', leads reg v t [] w t' /\ just w t' e.
  Lemma honest_here v t e : just v t e -> honest v t e.
  Proof. intro H. exists v, t. split; [constructor|exact H]. Qed.
  Lemma honest_value c x y t e : values c = [x] -> honest x t e -> honest (Val (DComposite c) y) t e.
  Proof. intros H1 (w & t' & H & C). exists w, t'. split; [|exact C]. eapply Le_value; eassumption. Qed.
  Lemma honest_types v t t1 e : chain (transparent reg) t t1 -> honest v t1 e -> honest v t e.
  Proof. intros H1 (w & t' & H & C). exists w, t'. split; [|exact C]. clear C. induction H1; [exact H|]. eapply Le_type; [eassumption|auto]. Qed.

  Definition candid (x : value T) : Prop := forall t out e o, encode_l reg X F x t out = ((SErr e, o), []) -> honest x t e.

  Lemma source_len (c : composite (value T)) : length (source_fields (composite_map snd (composite_map (lpair reg X F) c))) = length (values c).
  Proof. destruct c as [l|l]; cbn [composite_map source_fields values]; rewrite !map_length; reflexivity. Qed.

  Lemma struct_honest y (c : composite (value T)) t out e o : Forall candid (values c) ->
    (exists fs, reg t = ResTy (TComposite fs)) \/ (exists ts, reg t = ResTy (TTuple ts)) ->
    encode_struct_l reg F (source_fields (composite_map snd (composite_map (lpair reg X F) c))) t out = ((SErr e, o), []) -> honest (Val (DComposite c) y) t e.
  Proof.
    intros HG HT H. unfold encode_struct_l in H. destruct (skip_through reg F t) as [t1|] eqn:SK; [|discriminate]. apply skip_through_chain in SK.
    assert (HS : forall n enc, source_fields (composite_map snd (composite_map (lpair reg X F) c)) = [(n, enc)] -> enc t1 out = ((SErr e, o), []) -> honest (Val (DComposite c) y) t e).
    { intros n enc E HE. apply single_src in E as (x & E & ->). eapply honest_types; [exact SK|]. eapply honest_value; [exact E|].
      rewrite Forall_forall in HG. eapply HG; [|exact HE]. rewrite E. now left. }
    assert (HFS : forall fs, has_fields reg t1 (Val (DComposite c) y) fs -> encode_fields_l (source_fields (composite_map snd (composite_map (lpair reg X F) c))) fs out = ((SErr e, o), []) ->
      honest (Val (DComposite c) y) t e).
    { intros fs HF HE. eapply honest_types; [exact SK|]. apply honest_here. eapply fields_just; [reflexivity|exact HF|exact HE]. }
    assert (HO : reg t1 <> ResErr -> (forall fs, reg t1 <> ResTy (TComposite fs)) -> (forall ts, reg t1 <> ResTy (TTuple ts)) ->
      (match source_fields (composite_map snd (composite_map (lpair reg X F) c)) with [(_, e)] => e t1 out | _ => nowhere (SErr XWrongShape, out) end) = ((SErr e, o), []) ->
      honest (Val (DComposite c) y) t e).
    { intros R1 R2 R3 HE.
      assert (W : length (values c) <> 1%nat -> honest (Val (DComposite c) y) t XWrongShape).
      { intro L. apply honest_here. destruct SK as [t|t t2 t1 S1 S2]; [exfalso; destruct HT as [[fs HT]|[ts HT]]; [exact (R2 _ HT)|exact (R3 _ HT)]|].
        eapply Ju_wrapped; try eassumption; reflexivity. }
      rewrite <- source_len in W.
      destruct (source_fields _) as [|[n enc] [|]] eqn:E; [injection HE as <- _; apply W; discriminate|eapply HS; [reflexivity|exact HE]|injection HE as <- _; apply W; discriminate]. }
    destruct (reg t1) as [| |[fs|vs|u|u n|ts|q|u|st od]] eqn:R; try (apply HO; [discriminate|discriminate|discriminate|exact H]).
    - injection H as <- _. apply honest_here. eapply Ju_unresolvable; [|exact R]. eapply chain_mono; [apply tr_wraps|exact SK].
    - assert (HFC : has_fields reg t1 (Val (DComposite c) y) fs) by (eapply HF_composite; [reflexivity|exact R]).
      destruct (source_fields _) as [|[[k|] enc] [|]] eqn:E; try (eapply HFS; [exact HFC|exact H]). eapply HS; [reflexivity|exact H].
    - assert (HFC : has_fields reg t1 (Val (DComposite c) y) (map (fun t => (None, t)) ts)) by (eapply HF_tuple; [reflexivity|exact R]).
      destruct (source_fields _) as [|[k enc] [|]] eqn:E; try (eapply HFS; [exact HFC|exact H]). eapply HS; [reflexivity|exact H].
  Qed.

  Lemma do_honest y (c : composite (value T)) t e o : Forall candid (values c) ->
    do_encode_l reg F (composite_map (lpair reg X F) c) t [] = ((SErr e, o), []) -> honest (Val (DComposite c) y) t e.
  Proof.
    intros HG H. unfold do_encode_l in H. pose proof HG as HG'. rewrite Forall_forall in HG'.
    assert (HS : just (Val (DComposite c) y) t XWrongShape -> (match values (composite_map (lpair reg X F) c) with [x] => snd x t [] | _ => nowhere (SErr XWrongShape, []) end) = ((SErr e, o), []) ->
      honest (Val (DComposite c) y) t e).
    { rewrite values_cmap. intros J HE. destruct (values c) as [|x [|]] eqn:E; [injection HE as <- _; apply honest_here; exact J| |injection HE as <- _; apply honest_here; exact J].
      eapply honest_value; [exact E|]. eapply HG'; [|exact HE]. now left. }
    destruct (reg t) as [| |[fs|vs|u|u n|ts|q|u|st od]] eqn:R;
      try (apply HS; [first [eapply Ju_unknown; [constructor|exact R]|eapply Ju_kind; [constructor|exact R|intro Tk; exact Tk]]|exact H]).
    - injection H as <- _. apply honest_here. eapply Ju_unresolvable; [constructor|exact R].
    - eapply struct_honest; [exact HG|left; eauto|exact H].
    - exfalso. eapply all_not_here; exact H.
    - destruct (_ =? _) eqn:L; [exfalso; eapply all_not_here; exact H|]. injection H as <- _. apply honest_here. eapply Ju_array; [reflexivity|exact R|].
      apply N.eqb_neq in L. unfold clen in L. destruct c; cbn [values composite_map] in *; rewrite ?map_length in *; exact L.
    - eapply struct_honest; [exact HG|right; eauto|exact H].
    - destruct (bits_of _) as [b|]; discriminate.
  Qed.

  Lemma byte_array_honest (v : value T) q b t : vdef_of v = DPrim q -> bytes_of_256 q = Some b -> forall f u out e o, chain (wraps1 reg) t u ->
    encode_byte_array_l reg X F f b u out = ((SErr e, o), []) -> just v t e.
  Proof.
    intros HV HB.
    assert (K : forall u, chain (wraps1 reg) t u -> forall ty, reg u = ResTy ty ->
      match ty with TPrim (PtU256 | PtI256) => x_256 X = false | TSequence _ | TArray _ _ => False | _ => True end -> just v t XWrongShape).
    { intros u C ty R Hk. eapply Ju_kind; [eapply chain_mono; [apply w1_wraps|exact C]|exact R|]. rewrite HV.
      destruct q; try discriminate HB; destruct ty as [fs|vs|x|x n|ts|[| | |w|w| |]|x|st od]; cbn [takes]; congruence || tauto. }
    induction f as [|f IH]; intros u out e o HC H; [discriminate|]. cbn [encode_byte_array_l] in H.
    destruct (reg u) as [| |[fs|vs|u'|u' k|ts|[| | |w|w| |]|u'|st od]] eqn:R;
      try (injection H as <- _; eapply K; [exact HC|exact R|exact I]; fail).
    - injection H as <- _. eapply Ju_unresolvable; [eapply chain_mono; [apply w1_wraps|exact HC]|exact R].
    - injection H as <- _. eapply Ju_unknown; [eapply chain_mono; [apply w1_wraps|exact HC]|exact R].
    - destruct fs as [|[n u'] [|]]; try (injection H as <- _; eapply K; [exact HC|exact R|exact I]; fail). eapply IH; [|exact H]. cbn [snd]. eapply chain_end; [exact HC|]. eapply W_struct, R.
    - exfalso. eapply all_not_here; exact H.
    - destruct (_ =? _) eqn:L; [exfalso; eapply all_not_here; exact H|]. injection H as <- _. apply N.eqb_neq in L. eapply Ju_byte_array; eassumption.
    - destruct ts as [|u' [|]]; try (injection H as <- _; eapply K; [exact HC|exact R|exact I]; fail). eapply IH; [|exact H]. eapply chain_end; [exact HC|]. apply W_tuple, R.
    - unfold nowhere in H. destruct (x_256 X) eqn:E; [discriminate|]. injection H as <- _. eapply K; [exact HC|exact R|reflexivity].
    - unfold nowhere in H. destruct (x_256 X) eqn:E; [discriminate|]. injection H as <- _. eapply K; [exact HC|exact R|reflexivity].
  Qed.

  Theorem encode_candid (v : value T) : candid v.
  Proof.
    induction v as [d ctx IH] using value_ind'. intros t out e o H.
    destruct d as [c|n c|b|q]; cbn [children] in IH.
    - change (encode_composite_l reg F (composite_map (lpair reg X F) c) t out = ((SErr e, o), [])) in H. unfold encode_composite_l in H.
      destruct (do_encode_l reg F (composite_map (lpair reg X F) c) t []) as [[[|e'|] tmp] k] eqn:D; try discriminate.
      assert (e' = e /\ k = []) as [-> ->].
      { destruct (find_single reg F t false) as [[t' diff]|]; [|discriminate].
        destruct (fst (if diff then _ else _)) as [[|e2|] tmp2]; try discriminate.
        destruct (values (composite_map (lpair reg X F) c)) as [|x [|]]; try (injection H as E1 E2 E3; split; congruence). destruct (fst (snd x t' [])) as [[|e3|] tmp3]; try discriminate.
        injection H as E1 E2 E3; split; congruence. }
      eapply do_honest; [exact IH|exact D].
    - change (encode_variant_l reg F n (composite_map (lpair reg X F) c) t out = ((SErr e, o), [])) in H. unfold encode_variant_l in H.
      destruct (skip_through reg F t) as [t1|] eqn:SK; [|discriminate]. apply skip_through_chain in SK. pose proof (chain_mono _ _ _ _ tr_wraps SK) as SW.
      destruct (reg t1) as [| |[fs|vs|u|u k|ts|q|u|st od]] eqn:R;
        try (injection H as <- _; apply honest_here; first [eapply Ju_unresolvable; eassumption|eapply Ju_unknown; eassumption|eapply Ju_kind; [exact SW|exact R|intro Tk; exact Tk]]; fail).
      destruct (find _ vs) as [i|] eqn:FI.
      + apply find_some in FI as [HI FI]. apply str_eqb_eq in FI. eapply honest_types; [exact SK|]. apply honest_here.
        eapply fields_just; [reflexivity| |exact H]. eapply HF_variant; [reflexivity|exact R|exact HI|exact FI].
      + injection H as <- _. eapply honest_types; [exact SK|]. apply honest_here. eapply Ju_variant; [reflexivity|exact R|].
        intro HI. apply in_map_iff in HI as (i & E & HI). pose proof (find_none _ _ FI i HI) as FN. cbn in FN. rewrite E, (proj2 (str_eqb_eq n n) eq_refl) in FN. discriminate.
    - cbn [encode_l] in H. injection H as H. apply honest_here. eapply leaf_just; [|exact H]. intros ty. cbn [vdef_of takes]. destruct ty as [fs|vs|x|x n|ts|[| | |w|w| |]|x|st od]; try discriminate; tauto.
    - cbn [encode_l] in H. apply honest_here. destruct q; cbn [encode_primitive_l encode_primitive] in H.
      + injection H as H. eapply leaf_just; [|exact H]. intros ty. cbn [vdef_of takes]. destruct ty as [fs|vs|x|x n|ts|[| | |w|w| |]|x|st od]; try discriminate; tauto.
      + injection H as H. unfold encode_char in H. destruct (find_single reg F t false) as [[u d]|] eqn:E; [|discriminate].
        pose proof (find_single_chain _ _ _ _ _ E) as CH.
        assert (D : reg u = ResTy (TPrim PtChar) /\ x_char X = false /\ e = XWrongShape \/ reg u <> ResTy (TPrim PtChar) /\ encode_number reg F (Z.of_N c) t out = (SErr e, o)).
        { destruct (reg u) as [| |[fs|vs|x|x n|ts|[| | |w|w| |]|x|st od]]; try (right; split; [discriminate|exact H]). left. destruct (x_char X); [discriminate|]. injection H as <- _. auto. }
        destruct D as [(R & XC & ->)|(R & H')].
        * eapply Ju_kind; [exact CH|exact R|]. cbn [vdef_of takes]. congruence.
        * clear H. unfold encode_number in H'. rewrite E in H'.
          eapply (number_just (Val (DPrim (PChar c)) ctx) (Z.of_N c) t out e o eq_refl); [| |unfold encode_number; rewrite E; exact H'].
          -- intros ty. cbn [vdef_of takes]. destruct ty as [fs|vs|x|x n|ts|[| | |w|w| |]|x|st od]; tauto.
          -- intros u' d' E' R'. rewrite E in E'. injection E' as <- <-. contradiction.
      + injection H as H. eapply leaf_just; [|exact H]. intros ty. cbn [vdef_of takes]. destruct ty as [fs|vs|x|x n|ts|[| | |w|w| |]|x|st od]; try discriminate; tauto.
      + injection H as H. eapply (number_just (Val (DPrim (PU128 n)) ctx) _ t out e o eq_refl); [| |exact H].
        * intros ty. cbn [vdef_of takes]. destruct ty as [fs|vs|x|x k|ts|[| | |w|w| |]|x|st od]; tauto.
        * intros u' d' _ _ Tk. exact Tk.
      + injection H as H. eapply (number_just (Val (DPrim (PI128 z)) ctx) _ t out e o eq_refl); [| |exact H].
        * intros ty. cbn [vdef_of takes]. destruct ty as [fs|vs|x|x k|ts|[| | |w|w| |]|x|st od]; tauto.
        * intros u' d' _ _ Tk. exact Tk.
      + eapply byte_array_honest; [reflexivity|reflexivity|constructor|exact H].
      + eapply byte_array_honest; [reflexivity|reflexivity|constructor|exact H].
  Qed.
End Honest.

(** ** Types that cannot be resolved *)
Section Unresolved.
  Context {TId : Type} (reg : TId -> resolution TId) (X : ext).
  (** What is reported for a type that is not there. *)
  Definition absence (r : resolution TId) : option eerr :=
    match r with ResErr => Some XTypeResolving | ResNotFound => Some XWrongShape | ResTy _ => None end.

  (** All walks through the wrappers around [t] end at [u]. *)
  Record walks (e : eerr) (u : TId) (n : nat) (t : TId) : Prop := Walks {
    wk_skip : forall F, (n <= F)%nat -> skip_through reg F t = Some u;
    wk_find : forall F b, (n <= F)%nat -> exists b', find_single reg F t b = Some (u, b');
    wk_bytes : forall F f b out, (n <= f)%nat -> encode_byte_array reg X F f b t out = (SErr e, out)
  }.
  Lemma walks_exist e u : absence (reg u) = Some e -> forall t, chain (transparent reg) t u -> exists n, walks e u n t /\ walks e u n u.
  Proof.
    intros HA t HC. induction HC as [u|t t' u HT HC IH].
    - exists 1%nat. assert (W : walks e u 1 u); [|auto]. constructor.
      + intros [|F] L; [lia|]. cbn [skip_through]. destruct (reg u); [reflexivity|reflexivity|discriminate].
      + intros [|F] b L; [lia|]. cbn [find_single]. destruct (reg u); [eauto|eauto|discriminate].
      + intros F [|f] b out L; [lia|]. cbn [encode_byte_array]. destruct (reg u); [|..]; try discriminate; injection HA as <-; reflexivity.
    - destruct (IH HA) as (n & W1 & W2). exists (S n). split; constructor.
      + intros [|F] L; [lia|]. cbn [skip_through]. inversion HT as [? ? R|? ? R]; subst; rewrite R; apply (wk_skip _ _ _ _ W1); lia.
      + intros [|F] b L; [lia|]. cbn [find_single]. inversion HT as [? ? R|? ? R]; subst; rewrite R; cbn [snd]; apply (wk_find _ _ _ _ W1); lia.
      + intros F [|f] b out L; [lia|]. cbn [encode_byte_array]. inversion HT as [? ? R|? ? R]; subst; rewrite R; cbn [snd]; apply (wk_bytes _ _ _ _ W1); lia.
      + intros F L. apply (wk_skip _ _ _ _ W2); lia.
      + intros F b L. apply (wk_find _ _ _ _ W2); lia.
      + intros F f b out L. apply (wk_bytes _ _ _ _ W2); lia.
  Qed.

  Lemma chain_cases t w : chain (transparent reg) t w -> t = w \/ exists t', transparent reg t t'.
  Proof. intros [a|a b c H _]; [left; reflexivity|right; exists b; exact H]. Qed.

  Context (e : eerr) (u : TId) (HA : absence (reg u) = Some e) (F n : nat) (HF : (n <= F)%nat).
  Lemma leaf_absent f t out : walks e u n t -> encode_leaf reg F f t out = (SErr e, out).
  Proof.
    intro W. unfold encode_leaf. destruct (wk_find _ _ _ _ W F false HF) as [b' ->]. destruct (reg u); [|..]; try discriminate; injection HA as <-; reflexivity.
  Qed.
  Lemma number_absent z t out : walks e u n t -> encode_number reg F z t out = (SErr e, out).
  Proof.
    intro W. unfold encode_number. destruct (wk_find _ _ _ _ W F false HF) as [b' ->]. destruct (reg u); [|..]; try discriminate; injection HA as <-; reflexivity.
  Qed.

  Lemma struct_absent {T} (c : composite (value T)) t : walks e u n t -> walks e u n u ->
    Forall (fun x => forall t out, chain (transparent reg) t u -> walks e u n t -> encode reg X F x t out = (SErr e, out)) (values c) ->
    encode_struct reg F (source_fields (composite_map snd (composite_map (fun x => (x, encode reg X F x)) c))) t [] = (SErr e, []).
  Proof.
    intros W WU IH. unfold encode_struct. rewrite (wk_skip _ _ _ _ W F HF). destruct (reg u) eqn:R; [injection HA as <-; reflexivity| |discriminate].
    injection HA as HA'. destruct c as [l|l]; cbn [composite_map source_fields values] in *; rewrite !map_map; cbn [fst snd].
    - destruct l as [|[k x] [|]]; cbn [map fst snd] in *; try (now rewrite HA'). inversion IH; subst. apply H1; [constructor|exact WU].
    - destruct l as [|x [|]]; cbn [map fst snd] in *; try (now rewrite HA'). inversion IH; subst. apply H1; [constructor|exact WU].
  Qed.

  Theorem encode_absent {T} (v : value T) : walks e u n u -> forall t out, chain (transparent reg) t u -> walks e u n t ->
    encode reg X F v t out = (SErr e, out).
  Proof.
    intros WU. induction v as [d ctx IH] using value_ind'. intros t out HC W.
    destruct d as [c|k c|b|q]; cbn [children] in IH.
    - change (encode_composite reg F (composite_map (fun x => (x, encode reg X F x)) c) t out = (SErr e, out)).
      assert (D : forall t, chain (transparent reg) t u -> walks e u n t -> do_encode reg F (composite_map (fun x => (x, encode reg X F x)) c) t [] = (SErr e, [])).
      { clear t HC W. intros t HC W. unfold do_encode. destruct (chain_cases t u HC) as [->|[t' HT]].
        - destruct (reg u) eqn:R; [injection HA as <-; reflexivity| |discriminate]. rewrite values_cmap.
          destruct (values c) as [|x [|]]; cbn [map]; try (injection HA as <-; reflexivity). inversion IH; subst. cbn [snd]. apply H1; [constructor|exact WU].
        - inversion HT as [? ? R|? ? R]; subst; rewrite R; apply struct_absent; auto. }
      unfold encode_composite. rewrite (D t HC W). destruct (wk_find _ _ _ _ W F false HF) as [b' ->].
      assert (D2 : (if b' then do_encode reg F (composite_map (fun x => (x, encode reg X F x)) c) u [] else (SErr e, [])) = (SErr e, [])).
      { destruct b'; [apply D; [constructor|exact WU]|reflexivity]. }
      rewrite D2, values_cmap. destruct (values c) as [|x [|]]; cbn [map]; try reflexivity. inversion IH; subst. cbn [snd]. rewrite (H1 u [] ltac:(constructor) WU). reflexivity.
    - change (encode_variant reg F k (composite_map (fun x => (x, encode reg X F x)) c) t out = (SErr e, out)). unfold encode_variant.
      rewrite (wk_skip _ _ _ _ W F HF). destruct (reg u); [|..]; try discriminate; injection HA as <-; reflexivity.
    - cbn [encode]. apply leaf_absent. exact W.
    - cbn [encode]. destruct q; cbn [encode_primitive]; try (apply leaf_absent; exact W); try (apply number_absent; exact W); try (apply (wk_bytes _ _ _ _ W); exact HF).
      unfold encode_char. destruct (wk_find _ _ _ _ W F false HF) as [b' E]. rewrite E. pose proof (number_absent (Z.of_N c) t out W) as N.
      destruct (reg u); [exact N|exact N|discriminate].
  Qed.
End Unresolved.
