(** * SerdeCtx: reading a value through serde never looks at contexts. *)
From Verif Require Import Base Value Spec_Value ValueFacts Scale Serde SerdeFacts Spec_Serde SerdeRt SerdeUni SerdeMore.

Section Ctx.
  Context {T U : Type} (g : T -> U).

  Definition src_map (s : source T) : source U :=
    match s with
    | SrcValue v => SrcValue (map_ctx g v)
    | SrcComposite c => SrcComposite (composite_map (map_ctx g) c)
    | SrcVariant n c => SrcVariant n (composite_map (map_ctx g) c)
    | SrcPrim p => SrcPrim p
    | SrcBools l => SrcBools l
    | SrcBool b => SrcBool b
    | SrcDoc d => SrcDoc d
    end.

  Definition ev_map (e : event T) : event U :=
    match e with
    | VBool b => VBool b
    | VInt sg w z => VInt sg w z
    | VChar c => VChar c
    | VString s => VString s
    | VBytes b => VBytes b
    | VNone => VNone
    | VSome s => VSome (src_map s)
    | VUnit => VUnit
    | VSeq b l => VSeq b (map src_map l)
    | VMap l => VMap (map (fun kv => (fst kv, src_map (snd kv))) l)
    | VEnum n c => VEnum n (composite_map (map_ctx g) c)
    | VFloat => VFloat
    | VEnumOf n p => VEnumOf n (option_map src_map p)
    end.

  Lemma composite_any_map c : composite_any (composite_map (map_ctx g) c) = ev_map (composite_any c).
  Proof. destruct c as [l|l]; cbn [composite_map composite_any ev_map]; rewrite !map_map; reflexivity. Qed.

  Lemma values_map {A B} (f : A -> B) c : values (composite_map f c) = map f (values c).
  Proof. destruct c as [l|l]; cbn [composite_map values]; [rewrite !map_map|]; reflexivity. Qed.

  Lemma clen_map {A B} (f : A -> B) (c : composite A) : clen (composite_map f c) = clen c.
  Proof. destruct c; cbn [composite_map clen]; apply map_length. Qed.

  Lemma cis_empty_map {A B} (f : A -> B) (c : composite A) : cis_empty (composite_map f c) = cis_empty c.
  Proof. destruct c as [[|]|[|]]; reflexivity. Qed.

  Lemma vdef_of_map (v : value T) : vdef_of (map_ctx g v) = vdef_map (map_ctx g) (vdef_of v).
  Proof. destruct v. rewrite map_ctx_unfold. reflexivity. Qed.

  Lemma composite_bytes_map c : composite_bytes (composite_map (map_ctx g) c) = rmap ev_map (composite_bytes c).
  Proof.
    unfold composite_bytes. rewrite values_map, mapM_map.
    rewrite (mapM_ext _ (fun v => match vdef_of v with DPrim (PU128 n) => if (n <? 256)%N then Ok n else Err DCustom | _ => Err DCustom end)).
    - destruct (mapM _ (values c)); reflexivity.
    - intros v _. rewrite vdef_of_map. destruct (vdef_of v); reflexivity.
  Qed.

  Lemma composite_de_map c h : composite_de (composite_map (map_ctx g) c) h = rmap ev_map (composite_de c h).
  Proof.
    destruct h; cbn [composite_de]; try (rewrite composite_any_map; reflexivity); rewrite ?clen_map, ?cis_empty_map, ?values_map.
    - apply composite_bytes_map.
    - destruct (cis_empty c); reflexivity.
    - destruct (cis_empty c); reflexivity.
    - reflexivity.
    - cbn [rmap ev_map]. rewrite !map_map. reflexivity.
    - destruct (Nat.eqb _ _); [|reflexivity]. cbn [rmap ev_map]. rewrite !map_map. reflexivity.
    - destruct (Nat.eqb _ _); [|reflexivity]. cbn [rmap ev_map]. rewrite !map_map. reflexivity.
  Qed.

  Lemma prim_any_map p : prim_any p = ev_map (prim_any p).
  Proof. destruct p; reflexivity. Qed.

  Lemma prim_de_map p h : prim_de p h = ev_map (prim_de p h).
  Proof.
    destruct h; cbn [prim_de]; try apply prim_any_map; [|reflexivity].
    destruct p; try apply prim_any_map; destruct (in_int _ _ _); reflexivity.
  Qed.

  Lemma vdef_any_map d : vdef_any (vdef_map (map_ctx g) d) = ev_map (vdef_any d).
  Proof. destruct d as [c|n c|b|p]; cbn [vdef_map vdef_any]; [apply composite_any_map|reflexivity|reflexivity|apply prim_any_map]. Qed.

  Lemma variant_de_map n c h : variant_de n (composite_map (map_ctx g) c) h = rmap ev_map (variant_de n c h).
  Proof. destruct h; cbn [variant_de]; try reflexivity; apply composite_de_map. Qed.

  Lemma vdef_de_map d h : vdef_de (vdef_map (map_ctx g) d) h = rmap ev_map (vdef_de d h).
  Proof.
    assert (HA : Ok (E := derr) (vdef_any (vdef_map (map_ctx g) d)) = rmap ev_map (Ok (vdef_any d))) by (rewrite vdef_any_map; reflexivity).
    destruct h; cbn [vdef_de]; try exact HA;
      try (destruct d as [c|nm c|b|p]; cbn [vdef_map]; [apply composite_de_map|apply variant_de_map|reflexivity|rewrite prim_de_map; reflexivity]).
    destruct d as [c|n [l|l]|b|p]; try exact HA. cbn [vdef_map composite_map] in *. rewrite map_length.
    destruct (str_eqb n (s2l "Some") && Nat.eqb (length l) 1).
    - destruct l; reflexivity.
    - destruct (str_eqb n (s2l "None") && Nat.eqb (length l) 0); [reflexivity|exact HA].
  Qed.

  Lemma deserialize_map s h : deserialize (src_map s) h = rmap ev_map (deserialize s h).
  Proof.
    destruct s as [v|c|n c|p|l|b|d]; cbn [src_map deserialize].
    - rewrite vdef_of_map. apply vdef_de_map.
    - apply composite_de_map.
    - apply variant_de_map.
    - rewrite prim_de_map. reflexivity.
    - cbn [rmap ev_map]. rewrite map_map. reflexivity.
    - reflexivity.
    - destruct d as [b|sg w z|c|s|l|l| |b| | |d|n [d|]]; try reflexivity; cbn [doc_de rmap ev_map]; rewrite map_map; reflexivity.
  Qed.

  (** A visitor that does not look at contexts. *)
  Definition blind {A} (f : source U -> result A derr) (f0 : source T -> result A derr) : Prop := forall s, f (src_map s) = f0 s.

  Lemma bind_map {A} (r : result (event T) derr) (k : event U -> result A derr) (k0 : event T -> result A derr) :
    (forall e, k (ev_map e) = k0 e) -> bind (rmap ev_map r) k = bind r k0.
  Proof. intro H. destruct r; [apply H|reflexivity]. Qed.

  Lemma visit_bool_map e : visit_bool (ev_map e) = visit_bool e. Proof. destruct e; reflexivity. Qed.
  Lemma visit_int_map sg w e : visit_int sg w (ev_map e) = visit_int sg w e. Proof. destruct e; reflexivity. Qed.
  Lemma visit_char_map e : visit_char (ev_map e) = visit_char e. Proof. destruct e; reflexivity. Qed.
  Lemma visit_string_map e : visit_string (ev_map e) = visit_string e. Proof. destruct e; reflexivity. Qed.
  Lemma visit_unit_map e : visit_unit (ev_map e) = visit_unit e. Proof. destruct e; reflexivity. Qed.

  Lemma de_bool_map : blind de_bool de_bool.
  Proof. intro s. unfold de_bool. rewrite deserialize_map. apply bind_map. apply visit_bool_map. Qed.
  Lemma de_u8_map : blind de_u8 de_u8.
  Proof. intro s. unfold de_u8. rewrite deserialize_map. apply bind_map. apply visit_int_map. Qed.
  Lemma de_string_map : blind de_string de_string.
  Proof. intro s. unfold de_string. rewrite deserialize_map. apply bind_map. apply visit_string_map. Qed.

  Lemma visit_vec_map {A} (f : source U -> result A derr) f0 e : (forall s, In s (ev_subs e) -> f (src_map s) = f0 s) ->
    visit_vec f (ev_map e) = visit_vec f0 e.
  Proof. intro H. destruct e; try reflexivity. cbn [ev_map visit_vec ev_subs] in *. rewrite mapM_map. apply mapM_ext. exact H. Qed.

  Lemma seq_take_map {A} (fs : list (source U -> result A derr)) : forall fs0 l, Forall2 blind fs fs0 ->
    seq_take fs (map src_map l) = rmap (fun r => (fst r, map src_map (snd r))) (seq_take fs0 l).
  Proof.
    intros fs0 l H. revert l. induction H as [|f f0 fs fs0 Hf _ IH]; intro l; [reflexivity|].
    destruct l as [|s l]; [reflexivity|]. cbn [map seq_take]. rewrite Hf. destruct (f0 s); [|reflexivity]. cbn [bind]. rewrite IH.
    destruct (seq_take fs0 l); reflexivity.
  Qed.

  Lemma visit_elems_map {A} (fs : list (source U -> result A derr)) fs0 e : Forall2 blind fs fs0 -> visit_elems fs (ev_map e) = visit_elems fs0 e.
  Proof.
    intro H. destruct e; try reflexivity. cbn [ev_map visit_elems]. rewrite (seq_take_map _ _ _ H).
    destruct (seq_take fs0 l) as [[r [|x rest]]|]; reflexivity.
  Qed.

  Lemma visit_prim_map e : visit_prim (ev_map e) = visit_prim e.
  Proof.
    destruct e; try reflexivity. cbn [ev_map visit_prim]. rewrite mapM_map. rewrite (mapM_ext _ de_u8); [reflexivity|]. intros s _. apply de_u8_map.
  Qed.

  Lemma visit_composite_map (f : source U -> result (value unit) derr) f0 e : (forall s, In s (ev_subs e) -> f (src_map s) = f0 s) ->
    visit_composite f (ev_map e) = visit_composite f0 e.
  Proof.
    intro H. destruct e; try reflexivity; cbn [ev_map visit_composite ev_subs] in *; rewrite mapM_map.
    - rewrite (mapM_ext _ f0); [reflexivity|exact H].
    - cbn [fst snd]. rewrite (mapM_ext _ (fun kv => rmap (pair (fst kv)) (f0 (snd kv)))); [reflexivity|]. intros kv Hk. rewrite H; [reflexivity|]. apply in_map. exact Hk.
  Qed.

  Lemma visit_composite_map1 (f : source U -> result (value unit) derr) f0 e : (forall s, In s (ev_subs1 e) -> f (src_map s) = f0 s) ->
    visit_composite f (ev_map e) = visit_composite f0 e.
  Proof. intro H. destruct e; try reflexivity; apply visit_composite_map; exact H. Qed.
  Lemma any_of_map s : any_of (src_map s) = ev_map (any_of s).
  Proof. pose proof (deserialize_map s HAny) as H. rewrite !deserialize_any_ok in H. injection H as H. exact H. Qed.

  Lemma de_composite_with_map (f : source U -> result (value unit) derr) f0 s : (forall s', In s' (ev_subs (any_of s)) -> f (src_map s') = f0 s') ->
    de_composite_with f (src_map s) = de_composite_with f0 s.
  Proof. intro H. unfold de_composite_with. rewrite !deserialize_any_ok, any_of_map. cbn [bind]. apply visit_composite_map. exact H. Qed.

  Lemma variant_fields_map (f : source U -> result (value unit) derr) f0 l : (forall k s, In (k, s) l -> forall s', In s' (ev_subs (any_of s)) -> f (src_map s') = f0 s') ->
    forall a b, variant_fields f (map (fun kv => (fst kv, src_map (snd kv))) l) a b = variant_fields f0 l a b.
  Proof.
    induction l as [|[k s] l IH]; intros H a b; [reflexivity|]. cbn [map fst snd variant_fields].
    rewrite de_string_map, (de_composite_with_map f f0) by (apply (H k); left; reflexivity).
    assert (HI : forall a b, variant_fields f (map (fun kv => (fst kv, src_map (snd kv))) l) a b = variant_fields f0 l a b)
      by (apply IH; intros k' s' HIn; apply (H k'); right; exact HIn).
    destruct (str_eqb k _); [destruct (de_string s); [apply HI|reflexivity]|].
    destruct (str_eqb k _); [destruct (de_composite_with f0 s); [apply HI|reflexivity]|reflexivity].
  Qed.

  Lemma visit_valuedef_map (f : source U -> result (value unit) derr) f0 e :
    (forall s, In s (ev_subs e) -> f (src_map s) = f0 s) -> visit_valuedef f (ev_map e) = visit_valuedef f0 e.
  Proof.
    intro H. destruct e; try reflexivity.
    - cbn [ev_map visit_valuedef visit_variant]. rewrite H by (left; reflexivity). reflexivity.
    - change (visit_valuedef f (ev_map (VSeq strict l))) with (rmap DComposite (visit_composite f (ev_map (VSeq strict l)))).
      rewrite (visit_composite_map f f0) by exact H. reflexivity.
    - cbn [ev_map visit_valuedef]. cbn [ev_subs] in H. destruct l as [|[k s] l]; [reflexivity|]. cbn [map visit_map_or_bits fst snd].
      destruct (str_eqb k bitvec_key).
      + f_equal. rewrite deserialize_map. apply bind_map. intro e. apply visit_vec_map. intros s' _. apply de_bool_map.
      + rewrite H by (left; reflexivity). destruct (f0 s); [|reflexivity]. cbn [bind]. rewrite mapM_map. cbn [fst snd].
        rewrite (mapM_ext _ (fun kv => rmap (pair (fst kv)) (f0 (snd kv)))); [reflexivity|]. intros kv Hk. rewrite H; [reflexivity|].
        right. apply (in_map snd) in Hk. exact Hk.
    - cbn [ev_map visit_valuedef visit_variant ev_subs] in *. rewrite <- (de_composite_with_map f f0 (SrcComposite c)); [reflexivity|].
      intros s' Hs. apply H. right. cbn [any_of] in Hs. rewrite composite_any_subs in Hs. exact Hs.
    - destruct p as [s|]; [|reflexivity]. cbn [ev_map option_map visit_valuedef visit_variant ev_subs] in *. rewrite deserialize_any_ok in H.
      unfold de_composite_with. rewrite !deserialize_any_ok, any_of_map. cbn [bind]. rewrite (visit_composite_map1 f f0); [reflexivity|].
      intros s' Hs. apply H. right. exact Hs.
  Qed.

  Lemma de_value_map : blind de_value de_value.
  Proof.
    intro s. remember (src_size s) as n eqn:En. revert s En. induction n as [n IH] using lt_wf_ind. intros s En.
    rewrite !de_value_unfold, any_of_map. f_equal. apply visit_valuedef_map. intros s' Hs. apply any_subs in Hs. apply (IH (src_size s')); lia.
  Qed.

  Lemma de_composite_map : blind de_composite de_composite.
  Proof. intro s. apply de_composite_with_map. intros s' _. apply de_value_map. Qed.

  Lemma de_variant_map : blind de_variant de_variant.
  Proof.
    intro s. unfold de_variant. rewrite !deserialize_any_ok, any_of_map. cbn [bind]. destruct (any_of s); try reflexivity; cbn [ev_map visit_variant].
    - rewrite de_value_map. reflexivity.
    - rewrite (variant_fields_map de_value de_value); [reflexivity|]. intros k s' _ s'' _. apply de_value_map.
    - f_equal. apply (de_composite_map (SrcComposite c)).
    - destruct p as [s'|]; [|reflexivity]. cbn [option_map]. f_equal. apply (de_composite_map s').
  Qed.

  Lemma de_prim_map : blind de_prim de_prim.
  Proof. intro s. unfold de_prim. rewrite !deserialize_any_ok, any_of_map. apply visit_prim_map. Qed.

  Lemma struct_entries_map fs fs0 l : Forall2 (fun a b => fst a = fst b /\ blind (snd a) (snd b)) fs fs0 -> forall acc,
    struct_entries fs (map (fun kv => (fst kv, src_map (snd kv))) l) acc = struct_entries fs0 l acc.
  Proof.
    intro H. assert (HF : forall k, match find_field k fs, find_field k fs0 with Some f, Some f0 => blind f f0 | None, None => True | _, _ => False end).
    { intro k. induction H as [|[n f] [n' f'] fs fs0 (H1 & H2) _ IH]; [exact I|]. cbn [fst snd find_field] in *. subst n'. destruct (str_eqb k n); [exact H2|exact IH]. }
    induction l as [|[k s] l IH]; intro acc; [reflexivity|]. cbn [map fst snd struct_entries]. specialize (HF k).
    destruct (find_field k fs) as [f|], (find_field k fs0) as [f0|]; try contradiction.
    - destruct (find_field k acc); [reflexivity|]. rewrite HF. destruct (f0 s); [apply IH|reflexivity].
    - rewrite !de_ignored_ok. apply IH.
  Qed.

  Lemma visit_struct_map fs fs0 ms e : Forall2 (fun a b => fst a = fst b /\ blind (snd a) (snd b)) fs fs0 ->
    visit_struct fs ms (ev_map e) = visit_struct fs0 ms e.
  Proof.
    intro H. destruct e; try reflexivity.
    - change (visit_struct fs ms (ev_map (VSeq strict l))) with (rmap (combine (map fst fs)) (visit_elems (map snd fs) (ev_map (VSeq strict l)))).
      change (visit_struct fs0 ms (VSeq strict l)) with (rmap (combine (map fst fs0)) (visit_elems (map snd fs0) (VSeq strict l))).
      rewrite (visit_elems_map _ (map snd fs0)).
      + replace (map fst fs) with (map fst fs0); [reflexivity|]. induction H as [|? ? ? ? (H1 & _) _ IH]; [reflexivity|]. cbn [map]. rewrite H1, IH. reflexivity.
      + induction H as [|? ? ? ? (_ & H2) _ IH]; cbn [map]; constructor; assumption.
    - cbn [ev_map visit_struct]. rewrite (struct_entries_map _ _ _ H). reflexivity.
  Qed.

  Theorem de_map t : blind (de t) (de t).
  Proof.
    induction t as [|sg w| | | | |t IH|t IH|ts IH|t IH|t IH| |t IH|ts IH|fs IH|vs IH| | | |] using ty_ind'; intro s; cbn [de].
    - f_equal. apply de_bool_map.
    - f_equal. rewrite deserialize_map. apply bind_map. apply visit_int_map.
    - f_equal. rewrite deserialize_map. apply bind_map. apply visit_char_map.
    - f_equal. apply de_string_map.
    - f_equal. rewrite deserialize_map. apply bind_map. apply visit_unit_map.
    - rewrite deserialize_map. apply bind_map. intro e. destruct e; try reflexivity. cbn [ev_map]. rewrite mapM_map.
      rewrite (mapM_ext _ de_u8); [reflexivity|]. intros s' _. apply de_u8_map.
    - rewrite deserialize_map. apply bind_map. intro e. destruct e; try reflexivity. cbn [ev_map]. rewrite IH. reflexivity.
    - f_equal. rewrite deserialize_map. apply bind_map. intro e. apply visit_vec_map. intros s' _. apply IH.
    - f_equal. rewrite deserialize_map. apply bind_map. intro e. apply visit_elems_map. induction IH; cbn [map]; constructor; assumption.
    - rewrite deserialize_map. apply bind_map. intro e. destruct e; try reflexivity. cbn [ev_map]. rewrite mapM_map. cbn [fst snd].
      rewrite (mapM_ext _ (fun kv => rmap (pair (fst kv)) (de t (snd kv)))); [reflexivity|]. intros kv _. rewrite IH. reflexivity.
    - rewrite deserialize_map. apply bind_map. intro e. destruct e; try reflexivity. cbn [ev_map]. rewrite mapM_map. cbn [fst snd].
      rewrite (mapM_ext _ (fun kv => bind (visit_char (T := T) (VString (fst kv))) (fun c => rmap (pair [c]) (de t (snd kv))))); [reflexivity|]. intros kv _. rewrite IH. reflexivity.
    - f_equal. rewrite deserialize_map. apply bind_map. apply visit_unit_map.
    - rewrite deserialize_map. apply bind_map. intro e. f_equal. apply visit_elems_map. constructor; [exact IH|constructor].
    - f_equal. rewrite deserialize_map. apply bind_map. intro e. apply visit_elems_map. induction IH; cbn [map]; constructor; assumption.
    - f_equal. rewrite deserialize_map. apply bind_map. intro e. apply visit_struct_map. clear -IH.
      induction fs as [|[n t] fs IHf]; cbn [map]; constructor; inversion IH; subst; [split; [reflexivity|assumption]|apply IHf; assumption].
    - rewrite deserialize_map. apply bind_map. intro e. destruct e as [| | | | | | | | | |n c| |]; try reflexivity. cbn [ev_map visit_enum].
      rewrite !find_field_map. destruct (find_field n vs) as [b|] eqn:Eb; cbn [option_map]; [|reflexivity].
      apply find_field_In in Eb. rewrite Forall_forall in IH. specialize (IH _ Eb). cbn [snd] in IH.
      destruct b as [|t|ts|fs]; cbn [vs_tys vshape_map] in *.
      + cbn [deserialize]. rewrite composite_de_map. apply bind_map. intro e. rewrite visit_unit_map. reflexivity.
      + f_equal. inversion IH as [|? ? H _]; subst. apply (H (SrcComposite c)).
      + rewrite !map_length. rewrite composite_de_map. apply bind_map. intro e. f_equal. apply visit_elems_map. clear Eb. induction IH; cbn [map]; constructor; assumption.
      + f_equal. rewrite composite_any_map. apply visit_struct_map. clear -IH. induction fs as [|[m t] fs IHf]; cbn [map]; constructor; inversion IH; subst; [split; [reflexivity|assumption]|apply IHf; assumption].
    - f_equal. apply de_value_map.
    - f_equal. apply de_composite_map.
    - f_equal. apply de_variant_map.
    - f_equal. apply de_prim_map.
  Qed.
End Ctx.
