(** * SerdeRt: serialising to a [Value] and reading it back. *)
From Verif Require Import Base Value Spec_Value ValueFacts Scale Serde SerdeFacts Spec_Serde.

(** ** Survival *)
Lemma survives_iff {T} (v : value T) : survives v <-> node_survives v /\ Forall survives (fields_of v).
Proof.
  split.
  - intro H. split; [apply (H []); reflexivity|]. apply Forall_forall. intros c Hc p w Hw.
    apply In_nth_error in Hc as [i Hi]. apply (H (i :: p)). cbn [node_at]. rewrite Hi. exact Hw.
  - intros [H1 H2] [|i p] w Hw; cbn [node_at] in Hw; [injection Hw as <-; exact H1|].
    destruct (nth_error (fields_of v) i) as [c|] eqn:Ei; [|discriminate]. apply nth_error_In in Ei.
    rewrite Forall_forall in H2. exact (H2 c Ei p w Hw).
Qed.

Definition is_variant {T} (v : value T) : Prop := match v with Val (DVariant _ _) _ => True | _ => False end.

Lemma no_variants_iff {T} (v : value T) : no_variants v <-> ~ is_variant v /\ Forall no_variants (fields_of v).
Proof.
  split.
  - intro H. split.
    + intro HV. destruct v as [[c|n c|b|p] ctx]; try destruct HV. exact (H [] n c ctx eq_refl).
    + apply Forall_forall. intros c Hc p n c' ctx Hw. apply In_nth_error in Hc as [i Hi]. apply (H (i :: p) n c' ctx). cbn [node_at]. rewrite Hi. exact Hw.
  - intros [H1 H2] [|i p] n c ctx Hw; cbn [node_at] in Hw; [injection Hw as ->; apply H1; exact I|].
    destruct (nth_error (fields_of v) i) as [x|] eqn:Ei; [|discriminate]. apply nth_error_In in Ei.
    rewrite Forall_forall in H2. exact (H2 x Ei p n c ctx Hw).
Qed.

Lemma remove_context_unfold {T} d (ctx : T) : remove_context (Val d ctx) = Val (vdef_map remove_context d) tt.
Proof. exact (map_ctx_unfold (fun _ => tt) d ctx). Qed.

Definition same_value {T} (v : value T) : Prop := de_value (SrcValue v) = Ok (remove_context v).

Lemma mapM_same {T} (l : list (value T)) : mapM (fun v => de_value (SrcValue v)) l = Ok (map remove_context l) <-> Forall same_value l.
Proof.
  rewrite mapM_ok. induction l as [|v l IH]; cbn [map].
  - split; constructor.
  - split; intro H; inversion H; subst; constructor; try assumption; apply IH; assumption.
Qed.

Lemma de_fields_same {T} (l : list (str * value T)) :
  de_fields l = Ok (map (fun kv => (fst kv, remove_context (snd kv))) l) <-> Forall (fun kv => same_value (snd kv)) l.
Proof.
  unfold de_fields. rewrite mapM_ok. induction l as [|[k v] l IH]; cbn [map fst snd].
  - split; constructor.
  - split; intro H.
    + inversion H as [|? ? ? ? E1 E2]; subst. constructor; [|apply IH; assumption].
      cbn [fst snd] in *. unfold same_value. destruct (de_value (SrcValue v)) as [w|]; [|discriminate]. cbn [rmap] in E1. injection E1 as ->. reflexivity.
    + inversion H as [|? ? E1 E2]; subst. constructor; [|apply IH; assumption].
      cbn [fst snd] in *. unfold same_value in E1. rewrite E1. reflexivity.
Qed.

Lemma rmap_inj_ok {A B E} (f : A -> B) (r : result A E) x : (forall a b, f a = f b -> a = b) -> rmap f r = Ok (f x) <-> r = Ok x.
Proof.
  intro Hf. rewrite rmap_ok. split; [intros (y & -> & Hy); apply Hf in Hy; congruence|intros ->; eauto].
Qed.

Lemma de_comp_same {T} (c : composite (value T)) :
  de_comp c = Ok (composite_map remove_context c) <-> Forall same_value (values c).
Proof.
  destruct c as [l|l]; cbn [de_comp composite_map values].
  - rewrite (rmap_inj_ok Named) by congruence. rewrite de_fields_same, Forall_map. reflexivity.
  - rewrite (rmap_inj_ok Unnamed) by congruence. apply mapM_same.
Qed.

Lemma reserved_eq : reserved_key = bitvec_key. Proof. reflexivity. Qed.

Theorem value_to_value_iff {T} (v : value T) : same_value v <-> survives v.
Proof.
  induction v as [l ctx IH|l ctx IH|n l ctx IH|n l ctx IH|b ctx|p ctx] using value_ind4; rewrite survives_iff; unfold same_value; rewrite remove_context_unfold; cbn [vdef_map composite_map fields_of].
  - destruct (match l with (k, _) :: _ => str_eqb k bitvec_key | [] => false end) eqn:Ek.
    + destruct l as [|[k v] l]; [discriminate|]. split.
      * intro H. exfalso. rewrite de_value_unfold in H. cbn [any_of vdef_of vdef_any composite_any visit_valuedef map fst snd visit_map_or_bits] in H.
        rewrite Ek in H. destruct (bind _ _) in H; discriminate.
      * intros [H _]. exfalso. cbn [node_survives] in H. apply H. apply str_eqb_eq in Ek. rewrite reserved_eq. exact Ek.
    + rewrite de_value_named by (destruct l as [|[k v] l]; [exact I|exact Ek]).
      change (Val (DComposite (Named ?x)) tt) with (named_composite x). rewrite (rmap_inj_ok named_composite) by (intros; unfold named_composite in *; congruence).
      rewrite de_fields_same. rewrite Forall_map. split.
      * intro H. split.
        -- destruct l as [|[k v] l]; cbn [node_survives]; [exact I|]. apply str_eqb_neq in Ek. exact Ek.
        -- rewrite Forall_forall in *. intros kv Hk. apply IH; [exact Hk|]. apply H. exact Hk.
      * intros [_ H]. rewrite Forall_forall in *. intros kv Hk. apply IH; [exact Hk|]. apply H. exact Hk.
  - rewrite de_value_unnamed. change (Val (DComposite (Unnamed ?x)) tt) with (unnamed_composite x).
    rewrite (rmap_inj_ok unnamed_composite) by (intros; unfold unnamed_composite in *; congruence). rewrite mapM_same. cbn [node_survives].
    rewrite Forall_forall in *. split; [intro H; split; [exact I|]; rewrite Forall_forall; intros x Hx; apply IH; auto|intros [_ H] x Hx; rewrite Forall_forall in H; apply IH; auto].
  - rewrite de_value_variant. change (Val (DVariant n (Named (map ?f l))) tt) with ((fun c' => Val (DVariant n c') tt) (composite_map remove_context (Named l))).
    rewrite (rmap_inj_ok (fun c' => Val (DVariant n c') tt)) by (intros; congruence). rewrite de_comp_same. cbn [values node_survives]. rewrite !Forall_map.
    rewrite Forall_forall in IH. split; [intro H; split; [exact I|]; rewrite Forall_forall in *; intros x Hx; apply IH; auto|intros [_ H]; rewrite Forall_forall in *; intros x Hx; apply IH; auto].
  - rewrite de_value_variant. change (Val (DVariant n (Unnamed (map ?f l))) tt) with ((fun c' => Val (DVariant n c') tt) (composite_map remove_context (Unnamed l))).
    rewrite (rmap_inj_ok (fun c' => Val (DVariant n c') tt)) by (intros; congruence). rewrite de_comp_same. cbn [values node_survives].
    rewrite Forall_forall in IH. split; [intro H; split; [exact I|]; rewrite Forall_forall in *; intros x Hx; apply IH; auto|intros [_ H]; rewrite Forall_forall in *; intros x Hx; apply IH; auto].
  - rewrite de_value_bits. split; [split; [exact I|constructor]|reflexivity].
  - rewrite de_value_prim. destruct p; cbn [node_survives]; split; try (intros _; split; [exact I|constructor]); try reflexivity; try discriminate; intros [[] _].
Qed.

(** ** Serialising a [Value] *)
Lemma first_ok_to_value_u n : exists w, first_ok_type false [8; 16; 32; 64; 128]%N (Z.of_N n) = SInt false w (Z.of_N n).
Proof. cbn [first_ok_type]. repeat (destruct (in_int _ _ _); [eauto|]). eauto. Qed.

Lemma first_ok_to_value_i z : exists w, first_ok_type true [8; 16; 32; 64; 128]%N z = SInt true w z.
Proof. cbn [first_ok_type]. repeat (destruct (in_int _ _ _); [eauto|]). eauto. Qed.

Lemma to_value_bytes_tuple (b : bytes) : to_value_sd (STuple (map (fun x => SInt false 8 (Z.of_N x)) b)) = Ok (unnamed_composite (map vu128 b)).
Proof.
  cbn [to_value_sd]. rewrite mapM_map. rewrite (mapM_total _ vu128); [reflexivity|]. intros x _. cbn [to_value_sd]. rewrite N2Z.id. reflexivity.
Qed.

Definition flat_prim (p : prim) : value unit := match p with PU256 b | PI256 b => unnamed_composite (map vu128 b) | _ => primitive p end.

Lemma to_value_prim p : to_value_sd (ser_prim p) = Ok (flat_prim p).
Proof.
  destruct p as [b|c|s|n|z|b|b]; try reflexivity; cbn [ser_prim flat_prim].
  - destruct (first_ok_to_value_u n) as [w ->]. cbn [to_value_sd]. rewrite N2Z.id. reflexivity.
  - destruct (first_ok_to_value_i z) as [w ->]. reflexivity.
  - apply to_value_bytes_tuple.
  - apply to_value_bytes_tuple.
Qed.

Lemma to_value_composite {A} (f : A -> sd) (g : A -> value unit) (c : composite A) :
  (forall x, In x (values c) -> to_value_sd (f x) = Ok (g x)) ->
  to_value_sd (ser_composite_with f c) = Ok (Val (DComposite (composite_map g c)) tt).
Proof.
  intro H. destruct c as [l|l]; cbn [ser_composite_with composite_map to_value_sd values] in *.
  - rewrite mapM_map. rewrite (mapM_total _ (fun kv => (fst kv, g (snd kv)))); [reflexivity|]. intros [k x] Hx. cbn [to_value_sd bind key_of vdef_of vstring primitive fst snd].
    rewrite H; [reflexivity|]. apply (in_map snd) in Hx. exact Hx.
  - rewrite mapM_map. rewrite (mapM_total _ g); [reflexivity|]. exact H.
Qed.

Theorem to_value_of_value {T} (v : value T) : to_value_sd (ser_value v) = Ok (flatten v).
Proof.
  induction v as [d ctx IH] using value_ind'. rewrite Forall_forall in IH. destruct d as [c|n c|b|p]; cbn [ser_value flatten].
  - apply to_value_composite. exact IH.
  - unfold ser_variant_with. cbn [to_value_sd mapM bind key_of vdef_of vstring primitive]. rewrite (to_value_composite _ flatten); [reflexivity|exact IH].
  - unfold ser_bits. cbn [to_value_sd mapM bind key_of vdef_of vstring primitive]. rewrite mapM_map. rewrite (mapM_total _ vbool); reflexivity.
  - destruct p; exact (to_value_prim _).
Qed.

Lemma flatten_children_plain {T} (v : value T) : plain v -> no_bit_sequences v -> flatten v = remove_context v.
Proof.
  induction v as [d ctx IH] using value_ind'. intros [HS HV] HB. rewrite remove_context_unfold. rewrite Forall_forall in IH.
  rewrite survives_iff in HS. rewrite no_variants_iff in HV. destruct HS as [S1 S2], HV as [V1 V2]. rewrite fields_children in *. cbn [vdef_of] in *.
  destruct d as [c|n c|b|p]; cbn [flatten vdef_map].
  - assert (HE : composite_map flatten c = composite_map remove_context c).
    { assert (HI : forall x, In x (values c) -> flatten x = remove_context x).
      { intros x Hx. rewrite Forall_forall in S2, V2. apply IH; [exact Hx|split; auto|]. intros p b cx Hp. apply In_nth_error in Hx as [i Hi].
        apply (HB (i :: p) b cx). cbn [node_at]. rewrite fields_children. cbn [vdef_of]. cbn [children]. rewrite Hi. exact Hp. }
      destruct c as [l|l]; cbn [composite_map values] in *; f_equal; apply map_ext_in; intros x Hx.
      - rewrite HI; [reflexivity|]. apply in_map. exact Hx.
      - apply HI. exact Hx. }
    rewrite HE. reflexivity.
  - exfalso. apply V1. exact I.
  - exfalso. exact (HB [] b ctx eq_refl).
  - destruct p; try reflexivity; destruct S1.
Qed.

(** ** Reading back what a [Value] was serialised to *)
Lemma plain_children {T} (v : value T) : plain v -> Forall plain (fields_of v).
Proof.
  intros [HS HV]. rewrite survives_iff in HS. rewrite no_variants_iff in HV. destruct HS as [_ S2], HV as [_ V2].
  rewrite Forall_forall in *. intros x Hx. split; auto.
Qed.

Lemma map_bool_read {T} (f : bool -> value T) b : (forall x, de_bool (SrcValue (f x)) = Ok x) ->
  mapM (de_bool (T := T)) (map SrcValue (map f b)) = Ok b.
Proof. intro H. rewrite map_map, mapM_map. rewrite (mapM_total _ (fun x => x)); [rewrite map_id; reflexivity|]. intros x _. apply H. Qed.

Lemma mapM_flat {T} (l : list (value T)) : Forall (fun v => de_value (SrcValue (flatten v)) = Ok (remove_context v)) l ->
  mapM (fun v => de_value (SrcValue v)) (map flatten l) = Ok (map remove_context l).
Proof. intro H. rewrite mapM_map. apply mapM_total. rewrite Forall_forall in H. exact H. Qed.

Lemma de_comp_flat {T} (c : composite (value T)) : Forall (fun v => de_value (SrcValue (flatten v)) = Ok (remove_context v)) (values c) ->
  de_comp (composite_map flatten c) = Ok (composite_map remove_context c).
Proof.
  intro H. destruct c as [l|l]; cbn [composite_map de_comp values] in *.
  - unfold de_fields. rewrite mapM_map. rewrite (mapM_total _ (fun kv => (fst kv, remove_context (snd kv)))); [reflexivity|].
    intros kv Hk. cbn [fst snd]. rewrite Forall_forall in H. rewrite H; [reflexivity|]. apply in_map. exact Hk.
  - rewrite mapM_flat by exact H. reflexivity.
Qed.

Theorem value_read_back {T} (v : value T) : plain v -> de_value (SrcValue (flatten v)) = Ok (remove_context v).
Proof.
  induction v as [d ctx IH] using value_ind'. intro HP. pose proof (plain_children _ HP) as HC. rewrite fields_children in HC. cbn [vdef_of] in HC.
  destruct HP as [HS HV]. rewrite survives_iff in HS. rewrite no_variants_iff in HV. destruct HS as [S1 _], HV as [V1 _].
  assert (HI : Forall (fun v => de_value (SrcValue (flatten v)) = Ok (remove_context v)) (children d)).
  { rewrite Forall_forall in *. intros x Hx. apply IH; auto. }
  rewrite remove_context_unfold. destruct d as [c|n c|b|p]; cbn [flatten vdef_map children] in *.
  - pose proof (de_comp_flat c HI) as HD. destruct c as [l|l]; cbn [composite_map de_comp] in *.
    + rewrite de_value_named by (destruct l as [|[k x] l]; [exact I|cbn [map fst]; apply str_eqb_neq; exact S1]).
      destruct (de_fields _); [|discriminate]. cbn [rmap] in *. injection HD as ->. reflexivity.
    + rewrite de_value_unnamed. destruct (mapM _ _); [|discriminate]. cbn [rmap] in *. injection HD as ->. reflexivity.
  - exfalso. apply V1. exact I.
  - rewrite de_value_unfold. cbn [any_of vdef_of vdef_any named_composite composite_any visit_valuedef map fst snd visit_map_or_bits].
    rewrite reserved_eq, str_eqb_refl. cbn [deserialize vdef_of unnamed_composite vdef_de composite_de values bind visit_vec].
    rewrite (map_bool_read vbool) by reflexivity. reflexivity.
  - destruct p; try (destruct S1; fail); unfold primitive; rewrite ?de_value_prim; reflexivity.
Qed.

(** ** Through a document *)
Lemma doc_go_seq (l : list sd) (ds : list doc) : Forall2 (fun x d => to_doc x = Some d) l ds -> to_doc (SSeq l) = Some (FSeq ds).
Proof.
  intro H. cbn [to_doc]. match goal with |- option_map _ (?f l) = _ => assert (HG : f l = Some ds) end; [|rewrite HG; reflexivity].
  induction H as [|x d l ds Hx _ IH]; [reflexivity|]. rewrite Hx, IH. reflexivity.
Qed.
Lemma doc_go_tuple (l : list sd) (ds : list doc) : Forall2 (fun x d => to_doc x = Some d) l ds -> to_doc (STuple l) = Some (FSeq ds).
Proof. exact (doc_go_seq l ds). Qed.

Lemma doc_go_map {A} (f : A -> sd) (l : list (str * A)) (ds : list (str * doc)) :
  Forall2 (fun x d => fst d = fst x /\ to_doc (f (snd x)) = Some (snd d)) l ds ->
  to_doc (SMap (map (fun kv => match kv with (k, v) => (SStr k, f v) end) l)) = Some (FMap ds).
Proof.
  intro H. cbn [to_doc]. match goal with |- option_map _ (?f ?l) = _ => assert (HG : f l = Some ds) end; [|rewrite HG; reflexivity].
  induction H as [|[k x] [k' d] l ds [Hk Hx] _ IH]; [reflexivity|]. cbn [map fst snd] in *. subst k'. rewrite Hx, IH. reflexivity.
Qed.

Lemma doc_prim p : exists d, to_doc (ser_prim p) = Some d /\
  forall T, de_value (SrcDoc (T := T) d) = Ok (flat_prim p).
Proof.
  destruct p as [b|c|s|n|z|b|b]; cbn [ser_prim flat_prim].
  - eexists. split; [reflexivity|]. reflexivity.
  - eexists. split; [reflexivity|]. reflexivity.
  - eexists. split; [reflexivity|]. reflexivity.
  - destruct (first_ok_to_value_u n) as [w ->]. eexists. split; [reflexivity|]. intro T. rewrite de_value_unfold.
    cbn [any_of doc_de visit_valuedef visit_prim rmap]. rewrite N2Z.id. reflexivity.
  - destruct (first_ok_to_value_i z) as [w ->]. eexists. split; [reflexivity|]. reflexivity.
  - exists (FSeq (map (fun x => FInt false 8 (Z.of_N x)) b)). split.
    + apply doc_go_tuple. induction b; constructor; [reflexivity|assumption].
    + intro T. rewrite de_value_unfold. cbn [any_of doc_de visit_valuedef visit_composite]. rewrite map_map, mapM_map.
      rewrite (mapM_total _ vu128); [reflexivity|]. intros x _. rewrite de_value_unfold. cbn [any_of doc_de visit_valuedef visit_prim rmap]. rewrite N2Z.id. reflexivity.
  - exists (FSeq (map (fun x => FInt false 8 (Z.of_N x)) b)). split.
    + apply doc_go_tuple. induction b; constructor; [reflexivity|assumption].
    + intro T. rewrite de_value_unfold. cbn [any_of doc_de visit_valuedef visit_composite]. rewrite map_map, mapM_map.
      rewrite (mapM_total _ vu128); [reflexivity|]. intros x _. rewrite de_value_unfold. cbn [any_of doc_de visit_valuedef visit_prim rmap]. rewrite N2Z.id. reflexivity.
Qed.

(** The document of a composite, given those of its values. *)
Lemma doc_composite {T U} (g : value T -> value unit) (c : composite (value T)) :
  Forall (fun v => exists d, to_doc (ser_value v) = Some d /\ de_value (SrcDoc (T := U) d) = Ok (g v)) (values c) ->
  exists d, to_doc (ser_composite c) = Some d /\ de_composite (SrcDoc (T := U) d) = Ok (composite_map g c) /\
    (match c with Named ((k, _) :: _) => k <> reserved_key | _ => True end ->
     de_value (SrcDoc (T := U) d) = Ok (Val (DComposite (composite_map g c)) tt)).
Proof.
  destruct c as [l|l]; cbn [values]; intro H.
  - assert (HD : exists ds, Forall2 (fun (x : str * value T) (d : str * doc) => fst d = fst x /\ to_doc (ser_value (snd x)) = Some (snd d) /\ de_value (SrcDoc (T := U) (snd d)) = Ok (g (snd x))) l ds).
    { rewrite Forall_map in H. induction H as [|[k v] l (d & H1 & H2) _ (ds & IH)]; [exists []; constructor|]. exists ((k, d) :: ds). constructor; [auto|exact IH]. }
    destruct HD as (ds & HD). exists (FMap ds). split; [|split].
    + apply (doc_go_map ser_value). clear H. induction HD as [|a b l ds (H1 & H2 & _) _ IH]; constructor; auto.
    + unfold de_composite, de_composite_with. rewrite deserialize_any_ok. cbn [bind any_of doc_de visit_composite composite_map]. rewrite mapM_map. cbn [fst snd].
      match goal with |- rmap _ ?m = _ => assert (HG : m = Ok (map (fun kv => (fst kv, g (snd kv))) l)) end; [|rewrite HG; reflexivity].
      apply mapM_ok. induction HD as [|[k v] [k' d] l ds (Hk & H1 & H2) _ IH]; constructor; [|apply IH].
      * cbn [fst snd] in *. subst k'. rewrite H2. reflexivity.
      * inversion H; assumption.
    + intro HK. rewrite de_value_unfold. cbn [any_of doc_de visit_valuedef composite_map].
      rewrite visit_map_plain.
      2:{ destruct HD as [|[k v] [k' d] ? ? (Hk & _)]; [exact I|]. cbn [map fst snd] in *. subst k'. apply str_eqb_neq. exact HK. }
      rewrite mapM_map. cbn [fst snd].
      match goal with |- rmap _ (rmap _ ?m) = _ => assert (HG : m = Ok (map (fun kv => (fst kv, g (snd kv))) l)) end; [|rewrite HG; reflexivity].
      clear HK. apply mapM_ok. induction HD as [|[k v] [k' d] l ds (Hk & H1 & H2) _ IH]; constructor; [|apply IH].
      * cbn [fst snd] in *. subst k'. rewrite H2. reflexivity.
      * inversion H; assumption.
  - assert (HD : exists ds, Forall2 (fun x d => to_doc (ser_value x) = Some d /\ de_value (SrcDoc (T := U) d) = Ok (g x)) l ds).
    { induction H as [|v l (d & H1 & H2) _ (ds & IH)]; [exists []; constructor|]. exists (d :: ds). constructor; [auto|exact IH]. }
    destruct HD as (ds & HD). 
    assert (HM : mapM de_value (map (SrcDoc (T := U)) ds) = Ok (map g l)).
    { rewrite mapM_map. apply mapM_ok. clear H. induction HD as [|v d l ds (H1 & H2) _ IH]; constructor; assumption. }
    exists (FSeq ds). split; [|split].
    + apply doc_go_seq. clear H HM. induction HD as [|v d l ds (H1 & H2) _ IH]; constructor; assumption.
    + unfold de_composite, de_composite_with. rewrite deserialize_any_ok. cbn [bind any_of doc_de visit_composite composite_map]. rewrite HM. reflexivity.
    + intros _. rewrite de_value_unfold. cbn [any_of doc_de visit_valuedef visit_composite composite_map]. rewrite HM. reflexivity.
Qed.

Theorem value_through_doc {T U} (v : value T) : plain v ->
  exists d, to_doc (ser_value v) = Some d /\ de_value (SrcDoc (T := U) d) = Ok (remove_context v).
Proof.
  induction v as [d ctx IH] using value_ind'. intro HP. pose proof (plain_children _ HP) as HC. rewrite fields_children in HC. cbn [vdef_of] in HC.
  destruct HP as [HS HV]. rewrite survives_iff in HS. rewrite no_variants_iff in HV. destruct HS as [S1 _], HV as [V1 _].
  assert (HI : Forall (fun v => exists d, to_doc (ser_value v) = Some d /\ de_value (SrcDoc (T := U) d) = Ok (remove_context v)) (children d)).
  { rewrite Forall_forall in *. intros x Hx. apply IH; auto. }
  rewrite remove_context_unfold. destruct d as [c|n c|b|p]; cbn [ser_value vdef_map children] in *.
  - destruct (doc_composite remove_context c HI) as (d & H1 & _ & H2). exists d. split; [exact H1|]. apply H2.
    destruct c as [[|[k x] l]|l]; [exact I|exact S1|exact I].
  - exfalso. apply V1. exact I.
  - exists (FMap [(bitvec_key, FSeq (map FBool b))]). split.
    + unfold ser_bits. apply (doc_go_map (fun x => x) [(bitvec_key, SSeq (map SBool b))]). constructor; [|constructor]. split; [reflexivity|]. cbn [snd]. apply doc_go_seq. clear. induction b; cbn [map]; constructor; [reflexivity|assumption].
    + rewrite de_value_unfold. cbn [any_of doc_de visit_valuedef map fst snd visit_map_or_bits]. rewrite str_eqb_refl.
      cbn [deserialize doc_de bind visit_vec]. rewrite map_map, mapM_map. rewrite (mapM_total _ (fun x => x)); [rewrite map_id; reflexivity|]. reflexivity.
  - destruct (doc_prim p) as (d & H1 & H2). exists d. split; [exact H1|]. rewrite H2. destruct p; try (destruct S1; fail); reflexivity.
Qed.
