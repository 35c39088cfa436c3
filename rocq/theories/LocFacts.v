(** * LocFacts: facts about EncodeLoc. *)
From Verif Require Import Base Value ValueFacts Registry Spec_Scale Scale Encode Spec_Encode Spec_Same EncodeCost Spec_Loc EncodeLoc EncodeFacts EncodeComplete EncodeSound EncodeMore.
Open Scope N_scope.

(** ** The paths change nothing *)
Section Erase.
  Context {TId : Type} (reg : TId -> resolution TId) (X : ext) (F : nat).
  Definition lerases (e : encoder (TId := TId)) (ec : encoder_l (TId := TId)) : Prop := forall t out, fst (ec t out) = e t out.
  Definition lerases_f (p : option str * encoder (TId := TId)) (pc : option str * encoder_l (TId := TId)) : Prop :=
    fst p = fst pc /\ lerases (snd p) (snd pc).
  Definition lerases_l (e : encoder (TId := TId)) (ec : loc * encoder_l (TId := TId)) : Prop := lerases e (snd ec).

  Lemma fst_at_loc l r : fst (at_loc l r) = fst r.
  Proof. unfold at_loc. destruct r as [[[|e|] o] p]; reflexivity. Qed.
  Lemma fst_andthen_l r k kc : (forall out, fst (kc out) = k out) -> fst (andthen_l r kc) = andthen (fst r) k.
  Proof. intro H. unfold andthen_l, andthen. destruct r as [[[|e|] out] n]; cbn [fst]; auto. Qed.
  Lemma lerase_all es ec : Forall2 lerases_l es ec -> forall t out, fst (encode_all_l ec t out) = encode_all es t out.
  Proof.
    induction 1 as [|e c es ec H HF IH]; intros t out; [reflexivity|]. cbn [encode_all encode_all_l].
    rewrite (fst_andthen_l _ (fun out' => encode_all es t out')) by (intro; apply IH). now rewrite fst_at_loc, H.
  Qed.
  Lemma lerase_in_order es ec : Forall2 lerases_l es ec -> forall ts out, fst (encode_in_order_l ec ts out) = encode_in_order es ts out.
  Proof.
    induction 1 as [|e c es ec H HF IH]; intros [|t ts] out; try reflexivity. cbn [encode_in_order encode_in_order_l].
    rewrite (fst_andthen_l _ (fun out' => encode_in_order es ts out')) by (intro; apply IH). now rewrite fst_at_loc, H.
  Qed.
  Lemma lerase_lookup src srcc : Forall2 lerases_f src srcc -> forall name,
    match lookup_last name src, lookup_last_l name srcc with Some e, Some c => lerases e c | None, None => True | _, _ => False end.
  Proof.
    induction 1 as [|f c src srcc [H1 H2] HF IH]; intro name; cbn [lookup_last lookup_last_l]; [exact I|].
    specialize (IH name). destruct (lookup_last name src), (lookup_last_l name srcc); try contradiction; [exact IH|].
    unfold key_of. rewrite <- H1. destruct (str_eqb _ name); auto.
  Qed.
  Lemma lerase_by_name src srcc : Forall2 lerases_f src srcc -> forall fs out, fst (encode_by_name_l srcc fs out) = encode_by_name src fs out.
  Proof.
    intros H fs. induction fs as [|fd fs IH]; intro out; [reflexivity|]. cbn [encode_by_name encode_by_name_l].
    pose proof (lerase_lookup _ _ H (key_of fd)) as HL.
    destruct (lookup_last (key_of fd) src), (lookup_last_l (key_of fd) srcc); try contradiction; [|reflexivity].
    rewrite (fst_andthen_l _ (fun out' => encode_by_name src fs out')) by (intro; apply IH). now rewrite fst_at_loc, HL.
  Qed.
  Lemma lerase_named src srcc : Forall2 lerases_f src srcc -> existsb named_field srcc = existsb named_field src.
  Proof. induction 1 as [|f c src srcc [H1 H2] HF IH]; [reflexivity|]. cbn [existsb]. unfold named_field at 1 3. now rewrite H1, IH. Qed.
  Lemma lerase_located src srcc : Forall2 lerases_f src srcc -> forall i, Forall2 lerases_l (map snd src) (located i srcc).
  Proof. induction 1 as [|f [n c] src srcc [H1 H2] HF IH]; intro i; cbn [map located]; constructor; auto. Qed.
  Lemma lerase_indexed es ec : Forall2 lerases es ec -> forall i, Forall2 lerases_l es (indexed i ec).
  Proof. induction 1 as [|f c src srcc H HF IH]; intro i; cbn [indexed]; constructor; auto. Qed.
  Lemma lerase_fields src srcc : Forall2 lerases_f src srcc -> forall fs out, fst (encode_fields_l srcc fs out) = encode_fields src fs out.
  Proof.
    intros H fs out. unfold encode_fields_l, encode_fields. rewrite (lerase_named _ _ H).
    destruct (_ && _); [now apply lerase_by_name|].
    assert (HL : length srcc = length src) by (clear -H; induction H; cbn [length]; congruence). rewrite HL.
    destruct (_ =? _)%nat; [|reflexivity]. now apply lerase_in_order, lerase_located.
  Qed.
  Lemma lerase_struct src srcc : Forall2 lerases_f src srcc -> forall t out, fst (encode_struct_l reg F srcc t out) = encode_struct reg F src t out.
  Proof.
    intros H t out. unfold encode_struct_l, encode_struct. destruct (skip_through reg F t) as [t1|]; [|reflexivity].
    assert (H1 : forall fs, fst (match srcc with [(None, e)] => e t1 out | _ => encode_fields_l srcc fs out end) =
                           match src with [(None, e)] => e t1 out | _ => encode_fields src fs out end).
    { intro fs. inversion H as [|f c src' srcc' [Ha Hb] HF]; subst; [now apply lerase_fields|]. destruct f as [[n|] e], c as [n' ec]; cbn [fst snd] in *; subst n'.
      - destruct HF; apply lerase_fields; exact H.
      - destruct HF; [apply Hb|]. apply lerase_fields. exact H. }
    assert (H2 : forall fs, fst (match srcc with [(_, e)] => e t1 out | _ => encode_fields_l srcc fs out end) =
                           match src with [(_, e)] => e t1 out | _ => encode_fields src fs out end).
    { intro fs. inversion H as [|f c src' srcc' [Ha Hb] HF]; subst; [now apply lerase_fields|]. destruct f as [n e], c as [n' ec]; cbn [fst snd] in *; subst n'.
      destruct HF; [apply Hb|]. apply lerase_fields. exact H. }
    assert (H3 : fst (match srcc with [(_, e)] => e t1 out | _ => nowhere (SErr XWrongShape, out) end) =
                           match src with [(_, e)] => e t1 out | _ => (SErr XWrongShape, out) end).
    { inversion H as [|f c src' srcc' [Ha Hb] HF]; subst; [reflexivity|]. destruct f as [n e], c as [n' ec]; cbn [fst snd] in *; subst n'.
      destruct HF; [apply Hb|reflexivity]. }
    destruct (reg t1) as [| |[]]; auto.
  Qed.
  Lemma lerase_bytes b : Forall2 lerases (map (fun x => encode_number reg F (Z.of_N x)) b) (map (fun x t out => nowhere (encode_number reg F (Z.of_N x) t out)) b).
  Proof. induction b; cbn [map]; constructor; [intros t out; reflexivity|assumption]. Qed.
  Lemma lerase_byte_array b fuel : forall t out, fst (encode_byte_array_l reg X F fuel b t out) = encode_byte_array reg X F fuel b t out.
  Proof.
    induction fuel as [|f IH]; intros t out; [reflexivity|]. cbn [encode_byte_array encode_byte_array_l].
    destruct (reg t) as [| |[fs|vs|u|u n|ts|[]|u|st o]]; try reflexivity.
    - destruct fs as [|fd [|]]; try reflexivity. apply IH.
    - apply lerase_all, lerase_indexed, lerase_bytes.
    - destruct (_ =? _); [|reflexivity]. apply lerase_all, lerase_indexed, lerase_bytes.
    - destruct ts as [|t' [|]]; try reflexivity. apply IH.
  Qed.
  Lemma lerase_prim p : lerases (encode_primitive reg X F p) (encode_primitive_l reg X F p).
  Proof. intros t out. destruct p; try reflexivity; apply lerase_byte_array. Qed.

  Context {T : Type}.
  Definition lpair (x : value T) : value T * encoder_l := (x, encode_l reg X F x).
  Lemma lerase_source (c : composite (value T)) : Forall (fun x => lerases (encode reg X F x) (encode_l reg X F x)) (values c) ->
    Forall2 lerases_f (source_fields (composite_map snd (composite_map (pair_of reg X F) c))) (source_fields (composite_map snd (composite_map lpair c))).
  Proof.
    destruct c as [l|l]; cbn [values composite_map source_fields]; rewrite !map_map; intro H.
    - rewrite Forall_map in H. induction H; cbn [map]; constructor; [split; [reflexivity|]; assumption|assumption].
    - induction H; cbn [map]; constructor; [split; [reflexivity|]; assumption|assumption].
  Qed.
  Lemma source_snds {A} (c : composite A) : map snd (source_fields c) = values c.
  Proof. destruct c; cbn [source_fields values]; rewrite map_map; [reflexivity|apply map_id]. Qed.
  Lemma lerase_do (c : composite (value T)) : Forall (fun x => lerases (encode reg X F x) (encode_l reg X F x)) (values c) ->
    forall t out, fst (do_encode_l reg F (composite_map lpair c) t out) = do_encode reg F (composite_map (pair_of reg X F) c) t out.
  Proof.
    intros H t out. pose proof (lerase_source c H) as HS.
    assert (HQ : forall t out, fst (encode_all_l (sequence_items (composite_map lpair c)) t out) = encode_all (map snd (values (composite_map (pair_of reg X F) c))) t out).
    { apply lerase_all. unfold sequence_items. rewrite <- (values_cmap snd), <- source_snds. apply lerase_located. exact HS. }
    assert (HA : forall t out, fst (encode_all_l (indexed 0 (map snd (values (composite_map lpair c)))) t out) = encode_all (map snd (values (composite_map (pair_of reg X F) c))) t out).
    { apply lerase_all, lerase_indexed. rewrite !values_cmap, !map_map. clear HS HQ. induction H; cbn [map]; constructor; auto. }
    assert (H3 : fst (match values (composite_map lpair c) with [x] => snd x t out | _ => nowhere (SErr XWrongShape, out) end) =
                 match values (composite_map (pair_of reg X F) c) with [x] => snd x t out | _ => (SErr XWrongShape, out) end).
    { rewrite !values_cmap. destruct H as [|x l Hx H']; [reflexivity|]. destruct H'; [apply Hx|reflexivity]. }
    unfold do_encode_l, do_encode. rewrite !clen_cmap.
    destruct (reg t) as [| |[]]; try exact H3; try reflexivity.
    - now apply lerase_struct.
    - apply HQ.
    - destruct (_ =? _); [apply HA|reflexivity].
    - now apply lerase_struct.
    - rewrite !values_cmap, !map_map. cbn [lpair pair_of fst]. destruct (bits_of _); reflexivity.
  Qed.
  Lemma erase_encode_l (v : value T) : lerases (encode reg X F v) (encode_l reg X F v).
  Proof.
    induction v as [d ctx IH] using value_ind'. intros t out. destruct d as [c|n c|b|p]; cbn [children] in IH.
    - change (fst (encode_composite_l reg F (composite_map lpair c) t out) = encode_composite reg F (composite_map (pair_of reg X F) c) t out).
      unfold encode_composite_l, encode_composite.
      pose proof (lerase_do c IH) as HD. rewrite <- (HD t []).
      destruct (do_encode_l reg F (composite_map lpair c) t []) as [[[|e|] tmp] k]; cbn [fst]; try reflexivity.
      destruct (find_single reg F t false) as [[t' diff]|]; [|reflexivity].
      assert (HI : fst (if diff then do_encode_l reg F (composite_map lpair c) t' [] else nowhere (SErr e, [])) =
                   if diff then do_encode reg F (composite_map (pair_of reg X F) c) t' [] else (SErr e, [])).
      { destruct diff; [apply HD|reflexivity]. }
      rewrite HI. clear HI. set (r2 := if diff then do_encode reg F _ t' [] else _). clearbody r2. destruct r2 as [[|e'|] tmp']; try reflexivity.
      rewrite !values_cmap. destruct (values c) as [|x [|y l]]; cbn [map]; try reflexivity.
      cbn [pair_of lpair snd]. inversion_clear IH as [|? ? Hx _]. rewrite <- (Hx t' []).
      destruct (encode_l reg X F x t' []) as [[[|e''|] tmp''] k'']; reflexivity.
    - change (fst (encode_variant_l reg F n (composite_map lpair c) t out) = encode_variant reg F n (composite_map (pair_of reg X F) c) t out).
      unfold encode_variant_l, encode_variant.
      destruct (skip_through reg F t) as [t1|]; [|reflexivity]. destruct (reg t1) as [| |[]]; try reflexivity.
      destruct (find _ _); [|reflexivity]. now apply lerase_fields, lerase_source.
    - reflexivity.
    - apply lerase_prim.
  Qed.
End Erase.

(** ** Where the path leads *)
Section Where.
  Context {TId : Type} (reg : TId -> resolution TId) (X : ext) (F : nat).
  Lemma andthen_l_err r k e o p : andthen_l r k = ((SErr e, o), p) ->
    r = ((SErr e, o), p) \/ exists out, fst r = (SOk, out) /\ k out = ((SErr e, o), p).
  Proof. destruct r as [[[|e'|] out] q]; cbn [andthen_l fst]; intro H; eauto. Qed.
  Lemma at_loc_err l r e o p : at_loc l r = ((SErr e, o), p) -> exists q, p = l :: q /\ r = ((SErr e, o), q).
  Proof. destruct r as [[[|e'|] out] q]; cbn [at_loc fst snd]; intros [= -> -> <-]. eauto. Qed.
  Lemma all_err (es : list (loc * encoder_l (TId := TId))) t : forall out e o p, encode_all_l es t out = ((SErr e, o), p) ->
    exists i l enc out' o' q, nth_error es i = Some (l, enc) /\ p = l :: q /\ enc t out' = ((SErr e, o'), q) /\
      (forall j le, (j < i)%nat -> nth_error es j = Some le -> exists out' o', fst (snd le t out') = (SOk, o')).
  Proof.
    induction es as [|[l enc] es IH]; intros out e o p H; [discriminate|]. cbn [encode_all_l fst snd] in H.
    apply andthen_l_err in H as [H|(out' & HO & H)].
    - apply at_loc_err in H as (q & -> & H). exists 0%nat, l, enc, out, o, q. repeat split; auto. intros j le L. lia.
    - apply IH in H as (i & l' & enc' & out'' & o' & q & H1 & -> & H2 & H3). exists (S i), l', enc', out'', o', q.
      repeat split; auto. intros [|j] le L HN; [|apply (H3 j le); [lia|exact HN]].
      injection HN as <-. rewrite fst_at_loc in HO. cbn [snd]. eauto.
  Qed.
  Lemma in_order_err (es : list (loc * encoder_l (TId := TId))) : forall ts out e o p, encode_in_order_l es ts out = ((SErr e, o), p) ->
    exists i l enc t out' o' q, nth_error es i = Some (l, enc) /\ nth_error ts i = Some t /\ p = l :: q /\ enc t out' = ((SErr e, o'), q).
  Proof.
    induction es as [|[l enc] es IH]; intros [|t ts] out e o p H; try discriminate. cbn [encode_in_order_l fst snd] in H.
    apply andthen_l_err in H as [H|(out' & HO & H)].
    - apply at_loc_err in H as (q & -> & H). exists 0%nat, l, enc, t, out, o, q. repeat split; auto.
    - apply IH in H as (i & l' & enc' & t' & out'' & o' & q & H1 & H2 & -> & H3). exists (S i), l', enc', t', out'', o', q. repeat split; auto.
  Qed.
  Lemma lookup_nth name src enc : lookup_last_l (TId := TId) name src = Some enc -> exists i f, nth_error src i = Some f /\ key_of f = name /\ snd f = enc.
  Proof.
    induction src as [|f src IH]; [discriminate|]. cbn [lookup_last_l]. destruct (lookup_last_l name src) as [e|].
    - intros [= ->]. destruct (IH eq_refl) as (i & g & H). now exists (S i), g.
    - destruct (str_eqb (key_of f) name) eqn:E; [|discriminate]. intros [= <-]. exists 0%nat, f. split; [reflexivity|]. split; [|reflexivity]. now apply str_eqb_eq.
  Qed.
  Lemma by_name_err (src : list (option str * encoder_l (TId := TId))) fs : forall out e o p, encode_by_name_l src fs out = ((SErr e, o), p) -> p = [] \/
    exists fd i f out' o' q, In fd fs /\ nth_error src i = Some f /\ key_of f = key_of fd /\ p = LField (key_of fd) :: q /\ snd f (snd fd) out' = ((SErr e, o'), q).
  Proof.
    induction fs as [|fd fs IH]; intros out e o p H; [discriminate|]. cbn [encode_by_name_l] in H.
    destruct (lookup_last_l (key_of fd) src) as [enc|] eqn:L; [|injection H as _ _ <-; auto].
    apply andthen_l_err in H as [H|(out' & HO & H)].
    - apply at_loc_err in H as (q & -> & H). apply lookup_nth in L as (i & f & H1 & H2 & <-). right. exists fd, i, f, out, o, q. repeat split; auto. now left.
    - apply IH in H as [->|(fd' & i & f & out'' & o' & q & H1 & H2 & H3 & -> & H4)]; [auto|]. right. exists fd', i, f, out'', o', q. repeat split; auto. now right.
  Qed.
  Lemma located_nth {A} (l : list (option str * A)) : forall k i lo a, nth_error (located k l) i = Some (lo, a) ->
    exists n, nth_error l i = Some (n, a) /\ lo = match n with Some n => LField n | None => LIdx (k + i) end.
  Proof.
    induction l as [|[n b] l IH]; intros k [|i] lo a H; try discriminate.
    - cbn [located nth_error] in H. injection H as <- <-. exists n. split; [reflexivity|]. now rewrite Nat.add_0_r.
    - cbn [located nth_error] in H. apply IH in H as (m & H1 & ->). exists m. split; [exact H1|]. now rewrite <- Nat.add_succ_comm.
  Qed.
  Lemma indexed_nth {A} (l : list A) : forall k i lo a, nth_error (indexed k l) i = Some (lo, a) -> nth_error l i = Some a /\ lo = LIdx (k + i).
  Proof.
    induction l as [|b l IH]; intros k [|i] lo a H; try discriminate.
    - cbn [indexed nth_error] in H. injection H as <- <-. split; [reflexivity|]. now rewrite Nat.add_0_r.
    - cbn [indexed nth_error] in H. apply IH in H as (H1 & ->). split; [exact H1|]. now rewrite <- Nat.add_succ_comm.
  Qed.
  Lemma nth_indexed {A} (l : list A) : forall k i a, nth_error l i = Some a -> nth_error (indexed k l) i = Some (LIdx (k + i), a).
  Proof.
    induction l as [|b l IH]; intros k [|i] a H; try discriminate; cbn [indexed nth_error] in *.
    - injection H as ->. now rewrite Nat.add_0_r.
    - rewrite (IH _ _ _ H). now rewrite <- Nat.add_succ_comm.
  Qed.

  Context {T : Type}.
  Definition faulty (v : value T) (t : TId) (e : eerr) (p : list loc) : Prop :=
    exists p1 p2 w t', p = p1 ++ p2 /\ leads reg v t p1 w t' /\ culprit reg X F w t' e p2.
  Lemma faulty_here v t e out o : encode_l reg X F v t out = ((SErr e, o), []) -> faulty v t e [].
  Proof. intro H. exists [], [], v, t. repeat split; [constructor|econstructor; exact H]. Qed.
  Lemma faulty_step v c t l i x t1 e p : inside v = Some c -> names_child c l i x -> part reg t v l i t1 -> faulty x t1 e p -> faulty v t e (l :: p).
  Proof.
    intros H1 H2 H3 (p1 & p2 & w & t' & -> & H & C). exists (l :: p1), p2, w, t'. split; [reflexivity|]. split; [|exact C].
    eapply Le_step; eassumption.
  Qed.
  Lemma faulty_value c x y t e p : values c = [x] -> faulty x t e p -> faulty (Val (DComposite c) y) t e p.
  Proof. intros H1 (p1 & p2 & w & t' & -> & H & C). exists p1, p2, w, t'. repeat split; [|exact C]. eapply Le_value; eassumption. Qed.
  Lemma faulty_types v t t1 e p : chain (transparent reg) t t1 -> faulty v t1 e p -> faulty v t e p.
  Proof.
    intros H1 (p1 & p2 & w & t' & -> & H & C). exists p1, p2, w, t'. repeat split; [|exact C].
    clear C. induction H1; [exact H|]. eapply Le_type; [eassumption|auto].
  Qed.

  Lemma src_nth (c : composite (value T)) i f : nth_error (source_fields (composite_map snd (composite_map (lpair reg X F) c))) i = Some f ->
    exists x, snd f = encode_l reg X F x /\ nth_error (values c) i = Some x /\ match fst f with Some k => exists l, c = Named l /\ nth_error l i = Some (k, x) | None => True end.
  Proof.
    destruct c as [l|l]; cbn [composite_map source_fields values]; rewrite !map_map; cbn [fst snd lpair]; intro H.
    - rewrite nth_error_map in H. rewrite nth_error_map. destruct (nth_error l i) as [[k x]|] eqn:E; [|discriminate]. cbn [option_map fst snd] in *. injection H as <-. exists x. cbn [fst snd]. eauto 8.
    - rewrite nth_error_map in H. destruct (nth_error l i) as [x|] eqn:E; [|discriminate]. cbn [option_map fst snd] in *. injection H as <-. exists x. cbn [fst snd]. eauto 8.
  Qed.
  Lemma src_names (c : composite (value T)) i n enc : nth_error (source_fields (composite_map snd (composite_map (lpair reg X F) c))) i = Some (n, enc) ->
    exists x, enc = encode_l reg X F x /\ In x (values c) /\ names_child c (match n with Some k => LField k | None => LIdx i end) i x.
  Proof.
    intro H. apply src_nth in H as (x & H1 & H2 & H3). cbn [fst snd] in *. exists x. split; [exact H1|]. split; [eapply nth_error_In, H2|].
    destruct n as [k|]; [destruct H3 as (l & -> & H3); eapply NC_field; [reflexivity|exact H3]|constructor; exact H2].
  Qed.

  Definition good (x : value T) : Prop := forall t out e o p, encode_l reg X F x t out = ((SErr e, o), p) -> faulty x t e p.
  Lemma fields_err v c t fs out e o p : inside v = Some c -> Forall good (values c) -> has_fields reg t v fs ->
    encode_fields_l (source_fields (composite_map snd (composite_map (lpair reg X F) c))) fs out = ((SErr e, o), p) -> p = [] \/ faulty v t e p.
  Proof.
    intros HI HG HF H. rewrite Forall_forall in HG. unfold encode_fields_l in H. destruct (existsb named_field fs && existsb named_field _) eqn:B.
    - apply by_name_err in H as [->|([n t1] & i & [m enc] & out' & o' & q & H1 & H2 & H3 & -> & H4)]; [auto|]. right. cbn [snd] in H4.
      assert (exists l, c = Named l) as [l ->].
      { apply andb_prop in B as [_ B]. destruct c as [l|l]; [eauto|]. exfalso. clear -B. cbn [composite_map source_fields] in B. rewrite !map_map in B.
        induction l as [|a l IH]; [discriminate|]. cbn [map existsb] in B. unfold named_field at 1 in B. cbn [fst orb] in B. auto. }
      pose proof H2 as H2'. apply src_nth in H2' as (x & H5 & H6 & H7). cbn [fst snd] in *.
      destruct m as [k|]; [|exfalso; clear -H2; cbn [composite_map source_fields] in H2; rewrite nth_error_map in H2; destruct (nth_error _ i); [injection H2; discriminate|discriminate]].
      destruct H7 as (l' & [= <-] & H7). cbn [key_of fst] in H3. unfold key_of in H3. cbn [fst] in H3. subst enc.
      eapply faulty_step; [exact HI| | |eapply HG; [eapply nth_error_In, H6|exact H4]].
      + unfold key_of; cbn [fst]; rewrite <- H3. eapply NC_field; [reflexivity|exact H7].
      + unfold key_of in *. cbn [fst] in *. destruct n as [n|]; [eapply Pa_name|eapply Pa_noname]; eassumption.
    - destruct (_ =? _)%nat; [|injection H as _ _ <-; auto]. right.
      apply in_order_err in H as (i & l & enc & t1 & out' & o' & q & H1 & H2 & -> & H3).
      apply located_nth in H1 as (n & H1 & ->). apply src_names in H1 as (x & -> & HIn & HN).
      rewrite nth_error_map in H2. destruct (nth_error fs i) as [[m t2]|] eqn:E; [|discriminate]. injection H2 as <-.
      eapply faulty_step; [exact HI|exact HN| |eapply HG; eassumption]. eapply Pa_position; eassumption.
  Qed.
  Lemma single_src (c : composite (value T)) n enc : source_fields (composite_map snd (composite_map (lpair reg X F) c)) = [(n, enc)] ->
    exists x, values c = [x] /\ enc = encode_l reg X F x.
  Proof.
    destruct c as [l|l]; cbn [composite_map source_fields values]; rewrite !map_map; cbn [fst snd lpair]; intro H.
    - destruct l as [|[k x] [|]]; try discriminate. injection H as _ <-. eexists. split; reflexivity.
    - destruct l as [|x [|]]; try discriminate. injection H as _ <-. eexists. split; reflexivity.
  Qed.
  Lemma struct_err y (c : composite (value T)) t out e o p : Forall good (values c) ->
    encode_struct_l reg F (source_fields (composite_map snd (composite_map (lpair reg X F) c))) t out = ((SErr e, o), p) -> p = [] \/ faulty (Val (DComposite c) y) t e p.
  Proof.
    intros HG H. unfold encode_struct_l in H. destruct (skip_through reg F t) as [t1|] eqn:SK; [|discriminate]. apply skip_through_chain in SK.
    assert (HS : forall n enc, source_fields (composite_map snd (composite_map (lpair reg X F) c)) = [(n, enc)] -> enc t1 out = ((SErr e, o), p) -> faulty (Val (DComposite c) y) t e p).
    { intros n enc E HE. apply single_src in E as (x & E & ->). eapply faulty_types; [exact SK|]. eapply faulty_value; [exact E|].
      rewrite Forall_forall in HG. eapply HG; [|exact HE]. rewrite E. now left. }
    assert (HFS : forall fs, has_fields reg t1 (Val (DComposite c) y) fs -> encode_fields_l (source_fields (composite_map snd (composite_map (lpair reg X F) c))) fs out = ((SErr e, o), p) ->
      p = [] \/ faulty (Val (DComposite c) y) t e p).
    { intros fs HF HE. destruct (fields_err (Val (DComposite c) y) c t1 fs out e o p eq_refl HG HF HE) as [->|HE']; [auto|]. right. eapply faulty_types; eassumption. }
    assert (HO : (match source_fields (composite_map snd (composite_map (lpair reg X F) c)) with [(_, e)] => e t1 out | _ => nowhere (SErr XWrongShape, out) end) = ((SErr e, o), p) ->
      p = [] \/ faulty (Val (DComposite c) y) t e p).
    { intro HE. destruct (source_fields _) as [|[n enc] [|]] eqn:E; [injection HE as _ _ <-; auto|right; eapply HS; [reflexivity|exact HE]|injection HE as _ _ <-; auto]. }
    destruct (reg t1) as [| |[fs|vs|u|u n|ts|q|u|st od]] eqn:R; try (apply HO; exact H).
    - injection H as _ _ <-. auto.
    - assert (HFC : has_fields reg t1 (Val (DComposite c) y) fs) by (eapply HF_composite; [reflexivity|exact R]).
      destruct (source_fields _) as [|[[k|] enc] [|]] eqn:E; try (eapply HFS; [exact HFC|exact H]). right. eapply HS; [reflexivity|exact H].
    - assert (HFC : has_fields reg t1 (Val (DComposite c) y) (map (fun t => (None, t)) ts)) by (eapply HF_tuple; [reflexivity|exact R]).
      destruct (source_fields _) as [|[k enc] [|]] eqn:E; try (eapply HFS; [exact HFC|exact H]). right. eapply HS; [reflexivity|exact H].
  Qed.
  Lemma bits_err (vs : list (value T)) : forall k, bits_of vs = None -> exists i x, first_bad k vs = (k + i)%nat /\ nth_error vs i = Some x /\ (forall b, ~ is_bit x b) /\
    (forall j y, (j < i)%nat -> nth_error vs j = Some y -> exists b, is_bit y b).
  Proof.
    induction vs as [|v vs IH]; intros k H; [discriminate|]. cbn [bits_of first_bad] in *. destruct (bit_of v) as [b|] eqn:B.
    - destruct (bits_of vs); [discriminate|]. destruct (IH (S k) eq_refl) as (i & x & H1 & H2 & H3 & H4). exists (S i), x.
      repeat split; auto; [rewrite H1; lia|]. intros [|j] y L HN; [|apply (H4 j y); [lia|exact HN]]. injection HN as <-. exists b. now apply bit_of_iff.
    - exists 0%nat, v. repeat split; [lia| |intros; lia]. intros b HB. apply bit_of_iff in HB. congruence.
  Qed.
  Lemma do_err y (c : composite (value T)) t e o p : Forall good (values c) ->
    do_encode_l reg F (composite_map (lpair reg X F) c) t [] = ((SErr e, o), p) -> p = [] \/ faulty (Val (DComposite c) y) t e p.
  Proof.
    intros HG H. unfold do_encode_l in H. pose proof HG as HG'. rewrite Forall_forall in HG'.
    assert (HS : (match values (composite_map (lpair reg X F) c) with [x] => snd x t [] | _ => nowhere (SErr XWrongShape, []) end) = ((SErr e, o), p) ->
      p = [] \/ faulty (Val (DComposite c) y) t e p).
    { rewrite values_cmap. intro HE. destruct (values c) as [|x [|]] eqn:E; [injection HE as _ _ <-; auto| |injection HE as _ _ <-; auto].
      right. eapply faulty_value; [exact E|]. eapply HG'; [|exact HE]. now left. }
    destruct (reg t) as [| |[fs|vs|u|u n|ts|q|u|st od]] eqn:R; try (apply HS; exact H).
    - injection H as _ _ <-. auto.
    - eapply struct_err; eassumption.
    - right. apply all_err in H as (i & l & enc & out' & o' & q & H1 & -> & H2 & _). unfold sequence_items in H1.
      apply located_nth in H1 as (n & H1 & ->). apply src_names in H1 as (x & -> & HIn & HN).
      eapply faulty_step; [reflexivity|exact HN| |eapply HG'; eassumption]. eapply Pa_sequence; [reflexivity|exact R].
    - destruct (_ =? _); [|injection H as _ _ <-; auto]. right.
      apply all_err in H as (i & l & enc & out' & o' & q & H1 & -> & H2 & _).
      apply indexed_nth in H1 as (H1 & ->). rewrite values_cmap, map_map, nth_error_map in H1. destruct (nth_error (values c) i) as [x|] eqn:E; [|discriminate].
      injection H1 as <-. eapply faulty_step; [reflexivity|constructor; exact E| |eapply HG'; [eapply nth_error_In, E|exact H2]]. eapply Pa_array; [reflexivity|exact R].
    - eapply struct_err; eassumption.
    - rewrite values_cmap, map_map in H. cbn [lpair fst] in H. rewrite map_id in H. destruct (bits_of (values c)) as [b|] eqn:B; [discriminate|].
      injection H as <- _ <-. right. apply (bits_err _ 0) in B as (i & x & -> & H1 & H2 & H3). exists [], [LIdx i], (Val (DComposite c) y), t.
      repeat split; [constructor|]. eapply Cu_bit; try eassumption; reflexivity.
  Qed.
  Lemma number_ok n t out out' o : encode_number reg F (Z.of_N n) t out = (SOk, o) -> exists o', encode_number reg F (Z.of_N n) t out' = (SOk, o').
  Proof.
    unfold encode_number. destruct (find_single reg F t false) as [[t1 d]|]; [|discriminate].
    destruct (reg t1) as [| |[fs|vs|u|u k|ts|[| | |w|w| |]|u|st od]]; try discriminate.
    - destruct (in_unsigned w _); [|discriminate]. eauto.
    - destruct (in_signed w _); [|discriminate]. eauto.
    - destruct (find_single reg F u false) as [[t3 d']|]; [|discriminate].
      destruct (reg t3) as [| |[fs|vs|u'|u' k|ts|[| | |w|w| |]|u'|st od]]; try discriminate. destruct (in_unsigned w _); [|discriminate]. eauto.
  Qed.
  Lemma bytes_err (v : value T) q b t : vdef_of v = DPrim q -> bytes_of_256 q = Some b -> forall u t' out e o p, chain (wraps1 reg) t u ->
    (reg u = ResTy (TSequence t') \/ exists n, reg u = ResTy (TArray t' n)) ->
    encode_all_l (indexed 0 (map (fun x t out => nowhere (encode_number reg F (Z.of_N x) t out)) b)) t' out = ((SErr e, o), p) -> faulty v t e p.
  Proof.
    intros HV HB u t' out e o p HC HR H. apply all_err in H as (i & l & enc & out' & o' & r & H1 & -> & H2 & H3).
    apply indexed_nth in H1 as (H1 & ->). rewrite nth_error_map in H1. destruct (nth_error b i) as [n|] eqn:E; [|discriminate]. injection H1 as <-.
    injection H2 as H2 <-. exists [], [LIdx i], v, t. repeat split; [constructor|]. eapply Cu_byte; try eassumption.
    intros j m out'' L HN. specialize (H3 j (LIdx j, fun t out => nowhere (encode_number reg F (Z.of_N m) t out)) L). destruct H3 as (out3 & o3 & H3).
    { change (LIdx j) with (LIdx (0 + j)). apply nth_indexed. rewrite nth_error_map, HN. reflexivity. }
    eapply number_ok, H3.
  Qed.
  Lemma chain_end (R : TId -> TId -> Prop) t u w : chain R t u -> R u w -> chain R t w.
  Proof. induction 1; intro H'; [eapply Ch_step; [exact H'|constructor]|eapply Ch_step; eauto]. Qed.
  Lemma byte_array_err (v : value T) q b t : vdef_of v = DPrim q -> bytes_of_256 q = Some b -> forall f u out e o p, chain (wraps1 reg) t u ->
    encode_byte_array_l reg X F f b u out = ((SErr e, o), p) -> p = [] \/ faulty v t e p.
  Proof.
    intros HV HB. induction f as [|f IH]; intros u out e o p HC H; [discriminate|]. cbn [encode_byte_array_l] in H.
    destruct (reg u) as [| |[fs|vs|u'|u' k|ts|[| | |w|w| |]|u'|st od]] eqn:R; try (injection H as _ _ <-; auto; fail).
    - destruct fs as [|[n u'] [|]]; try (injection H as _ _ <-; auto; fail). eapply IH; [|exact H]. cbn [snd]. eapply chain_end; [exact HC|]. eapply W_struct, R.
    - right. eapply (bytes_err v q b t HV HB u u'); [exact HC|left; exact R|exact H].
    - destruct (_ =? _); [|injection H as _ _ <-; auto]. right. eapply (bytes_err v q b t HV HB u u'); [exact HC|right; exists k; exact R|exact H].
    - destruct ts as [|u' [|]]; try (injection H as _ _ <-; auto; fail). eapply IH; [|exact H]. eapply chain_end; [exact HC|]. apply W_tuple, R.
    - injection H as _ <-; auto.
    - injection H as _ <-; auto.
  Qed.

  Theorem encode_l_blames (v : value T) : good v.
  Proof.
    induction v as [d ctx IH] using value_ind'. intros t out e o p H.
    destruct p as [|l0 p0] eqn:EP; [eapply faulty_here; exact H|]. rewrite <- EP in *. assert (NE : p <> []) by (rewrite EP; discriminate). clear EP.
    enough (p = [] \/ faulty (Val d ctx) t e p) by tauto.
    destruct d as [c|n c|b|q]; cbn [children] in IH.
    - change (encode_composite_l reg F (composite_map (lpair reg X F) c) t out = ((SErr e, o), p)) in H. unfold encode_composite_l in H.
      destruct (do_encode_l reg F (composite_map (lpair reg X F) c) t []) as [[[|e'|] tmp] k] eqn:D; try discriminate.
      assert (e' = e /\ k = p) as [-> ->].
      { destruct (find_single reg F t false) as [[t' diff]|]; [|discriminate].
        destruct (fst (if diff then _ else _)) as [[|e2|] tmp2]; try discriminate.
        destruct (values (composite_map (lpair reg X F) c)) as [|x [|]]; try (injection H as E1 E2 E3; split; congruence). destruct (fst (snd x t' [])) as [[|e3|] tmp3]; try discriminate.
        injection H as E1 E2 E3; split; congruence. }
      eapply do_err; [exact IH|exact D].
    - change (encode_variant_l reg F n (composite_map (lpair reg X F) c) t out = ((SErr e, o), p)) in H. unfold encode_variant_l in H.
      destruct (skip_through reg F t) as [t1|] eqn:SK; [|discriminate]. apply skip_through_chain in SK.
      destruct (reg t1) as [| |[fs|vs|u|u k|ts|q|u|st od]] eqn:R; try (injection H as _ _ <-; auto; fail).
      destruct (find _ vs) as [i|] eqn:FI; [|injection H as _ _ <-; auto]. apply find_some in FI as [HI FI]. apply str_eqb_eq in FI.
      destruct (fields_err (Val (DVariant n c) ctx) c t1 (vi_fields i) (out ++ [vi_index i]) e o p eq_refl IH) as [->|H']; [eapply HF_variant; [reflexivity|exact R|exact HI|exact FI]|exact H|auto|]. right. eapply faulty_types; eassumption.
    - cbn [encode_l] in H. injection H as _ <-. auto.
    - cbn [encode_l] in H. destruct q; cbn [encode_primitive_l] in H; try (injection H as _ <-; auto; fail).
      all: eapply byte_array_err; [reflexivity|reflexivity|constructor|exact H].
  Qed.

  (** Without single-value composites the path is literal. *)
  Lemma leads_follows (v : value T) t p w t' : leads reg v t p w t' -> no_single v -> follows v p w.
  Proof.
    induction 1 as [v t|v c t l i x t1 p w t' H1 H2 H3 H4 IH|c x y t p w t' H1 H2 IH|v t t1 p w t' H1 H2 IH]; intro NS.
    - constructor.
    - econstructor; [exact H1|exact H2|]. apply IH. destruct NS as [v _ NS]. specialize (NS c H1). rewrite Forall_forall in NS. apply NS.
      destruct H2 as [i x HN|l i k x -> HN]; [eapply nth_error_In, HN|]. cbn [values]. apply in_map_iff. exists (k, x). split; [reflexivity|]. eapply nth_error_In, HN.
    - exfalso. inversion NS as [? N1 _]. eapply N1; [reflexivity|exact H1].
    - auto.
  Qed.
End Where.
