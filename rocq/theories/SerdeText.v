(** * SerdeText: what is read out of a value can also be read when the value went through text (C68). *)
From Verif Require Import Base Value Spec_Value ValueFacts Scale Chars Parse Fmt Spec_Fmt Serde SerdeFacts Spec_Serde SerdeRt SerdeUni SerdeMore SerdeCtx Spec_TextData RustFacts.

Section Un.
  Context {T : Type}.

  Definition src_un (s : source T) : source unit :=
    match s with
    | SrcValue v => SrcValue (unsigned_form v)
    | SrcComposite c => SrcComposite (composite_map unsigned_form c)
    | SrcVariant n c => SrcVariant n (composite_map unsigned_form c)
    | SrcPrim p => SrcPrim (unsign_prim p)
    | SrcBools l => SrcBools l
    | SrcBool b => SrcBool b
    | SrcDoc d => SrcDoc d
    end.

  (** The same event, up to the sign type of a number. *)
  Definition ev_sim (e : event T) (e' : event unit) : Prop :=
    match e with
    | VBool b => e' = VBool b
    | VInt sg w z => exists sg', e' = VInt sg' w z
    | VChar c => e' = VChar c
    | VString s => e' = VString s
    | VBytes b => e' = VBytes b
    | VNone => e' = VNone
    | VSome s => e' = VSome (src_un s)
    | VUnit => e' = VUnit
    | VSeq b l => e' = VSeq b (map src_un l)
    | VMap l => e' = VMap (map (fun kv => (fst kv, src_un (snd kv))) l)
    | VEnum n c => e' = VEnum n (composite_map unsigned_form c)
    | VFloat => e' = VFloat
    | VEnumOf n p => e' = VEnumOf n (option_map src_un p)
    end.
  Definition sim (r : result (event T) derr) (r' : result (event unit) derr) : Prop :=
    forall e, r = Ok e -> exists e', r' = Ok e' /\ ev_sim e e'.

  Lemma sim_ok e e' : ev_sim e e' -> sim (Ok e) (Ok e').
  Proof. intros H x E. injection E as <-. eauto. Qed.
  Lemma sim_err x r : sim (Err x) r.
  Proof. intros e E. discriminate. Qed.

  Lemma composite_any_sim c : ev_sim (composite_any c) (composite_any (composite_map unsigned_form c)).
  Proof. destruct c as [l|l]; cbn [composite_map composite_any ev_sim]; rewrite !map_map; reflexivity. Qed.
  Definition un_def (d : vdef (value T)) : vdef (value unit) :=
    match d with DComposite c => DComposite (composite_map unsigned_form c) | DVariant n c => DVariant n (composite_map unsigned_form c) | DBits b => DBits b | DPrim p => DPrim (unsign_prim p) end.
  Lemma vdef_of_un (v : value T) : vdef_of (unsigned_form v) = un_def (vdef_of v).
  Proof. destruct v as [[[l|l]|n [l|l]|b|p] ctx]; reflexivity. Qed.
  Lemma composite_bytes_sim c : sim (composite_bytes c) (composite_bytes (composite_map unsigned_form c)).
  Proof.
    unfold composite_bytes. intros e E. rewrite values_map. destruct (mapM _ (values c)) as [b|] eqn:M; [|discriminate]. injection E as <-.
    exists (VBytes b). split; [|reflexivity]. rewrite mapM_map. apply mapM_ok in M.
    assert (M' : mapM (fun v : value T => match vdef_of (unsigned_form v) with DPrim (PU128 n) => if (n <? 256)%N then Ok n else Err DCustom | _ => Err DCustom end) (values c) = Ok b).
    { apply mapM_ok. revert M. generalize (values c). intros l M. induction M as [|v x l b H _ IH]; constructor; [|exact IH]. rewrite vdef_of_un.
      destruct (vdef_of v) as [?|?|?|p]; try discriminate. destruct p; try discriminate. exact H. }
    rewrite M'. reflexivity.
  Qed.
  Lemma composite_de_sim c h : sim (composite_de c h) (composite_de (composite_map unsigned_form c) h).
  Proof.
    assert (HA : sim (Ok (composite_any c)) (Ok (composite_any (composite_map unsigned_form c)))) by (apply sim_ok, composite_any_sim).
    destruct h; cbn [composite_de]; try exact HA; rewrite ?clen_map, ?cis_empty_map, ?values_map.
    - apply composite_bytes_sim.
    - destruct (cis_empty c); [apply sim_ok; reflexivity|apply sim_err].
    - destruct (cis_empty c); [apply sim_ok; reflexivity|apply sim_err].
    - apply sim_ok. reflexivity.
    - apply sim_ok. cbn [ev_sim]. rewrite !map_map. reflexivity.
    - destruct (Nat.eqb _ _); [|apply sim_err]. apply sim_ok. cbn [ev_sim]. rewrite !map_map. reflexivity.
    - destruct (Nat.eqb _ _); [|apply sim_err]. apply sim_ok. cbn [ev_sim]. rewrite !map_map. reflexivity.
  Qed.
  Lemma prim_any_sim p : ev_sim (prim_any p) (prim_any (unsign_prim p)).
  Proof.
    destruct p; try reflexivity; cbn [unsign_prim prim_any ev_sim]; [eexists; reflexivity|].
    destruct (Z.leb_spec 0 z); cbn [prim_any]; [rewrite Z2N.id by assumption|]; eexists; reflexivity.
  Qed.
  Lemma prim_de_sim p h : ev_sim (prim_de p h) (prim_de (unsign_prim p) h).
  Proof.
    destruct h; cbn [prim_de]; try apply prim_any_sim; [|reflexivity].
    pose proof (prim_any_sim p) as HA. destruct p; try exact HA; cbn [unsign_prim] in *.
    - destruct (in_int sg w (Z.of_N n)); [eexists; reflexivity|exact HA].
    - destruct (Z.leb_spec 0 z) as [Hz|Hz]; [rewrite Z2N.id by exact Hz|]; (destruct (in_int sg w z); [eexists; reflexivity|exact HA]).
  Qed.
  Lemma variant_de_sim n c h : sim (variant_de n c h) (variant_de n (composite_map unsigned_form c) h).
  Proof. destruct h; cbn [variant_de]; try (apply sim_ok; reflexivity); apply composite_de_sim. Qed.
  Lemma vdef_any_sim d : ev_sim (vdef_any d) (vdef_any (un_def d)).
  Proof. destruct d as [c|n c|b|p]; cbn [un_def vdef_any]; [apply composite_any_sim|reflexivity|reflexivity|apply prim_any_sim]. Qed.
  Lemma bits_de_sim b h : sim (bits_de b h) (bits_de b h).
  Proof. destruct h; cbn [bits_de]; try apply sim_err; apply sim_ok; reflexivity. Qed.
  Lemma vdef_de_sim d h : sim (vdef_de d h) (vdef_de (un_def d) h).
  Proof.
    assert (HA : sim (Ok (vdef_any d)) (Ok (vdef_any (un_def d)))) by (apply sim_ok, vdef_any_sim).
    destruct h; cbn [vdef_de]; try exact HA;
      try (destruct d as [c|nm c|b|p]; cbn [un_def]; [apply composite_de_sim|apply variant_de_sim|apply bits_de_sim|apply sim_ok, prim_de_sim]).
    destruct d as [c|n [l|l]|b|p]; try exact HA. cbn [un_def composite_map] in *. rewrite map_length.
    destruct (str_eqb n (s2l "Some") && Nat.eqb (length l) 1).
    - destruct l; [apply sim_err|apply sim_ok; reflexivity].
    - destruct (str_eqb n (s2l "None") && Nat.eqb (length l) 0); [apply sim_ok; reflexivity|exact HA].
  Qed.
  Lemma deserialize_sim s h : sim (deserialize s h) (deserialize (src_un s) h).
  Proof.
    destruct s as [v|c|n c|p|l|b|d]; cbn [src_un deserialize].
    - rewrite vdef_of_un. apply vdef_de_sim.
    - apply composite_de_sim.
    - apply variant_de_sim.
    - apply sim_ok, prim_de_sim.
    - apply sim_ok. cbn [ev_sim]. rewrite map_map. reflexivity.
    - apply sim_ok. reflexivity.
    - apply sim_ok. destruct d as [b|sg w z|c|s|l|l| |b| | |d|n [d|]]; try reflexivity; cbn [doc_de ev_sim]; [eexists; reflexivity| |]; rewrite map_map; reflexivity.
  Qed.

  (** A reader that reads from the text form whatever it reads from the original. *)
  Definition keeps {A} (f : source unit -> result A derr) (f0 : source T -> result A derr) : Prop := forall s x, f0 s = Ok x -> f (src_un s) = Ok x.
  Definition vkeeps {A} (k : event unit -> result A derr) (k0 : event T -> result A derr) : Prop := forall e e' x, ev_sim e e' -> k0 e = Ok x -> k e' = Ok x.

  Lemma bind_keeps {A} h (k : event unit -> result A derr) k0 : vkeeps k k0 -> keeps (fun s => bind (deserialize s h) k) (fun s => bind (deserialize s h) k0).
  Proof.
    intros H s x E. destruct (deserialize s h) as [e|] eqn:D; [|discriminate]. cbn [bind] in E. destruct (deserialize_sim s h e D) as (e' & D' & S).
    rewrite D'. cbn [bind]. eapply H; eassumption.
  Qed.
  Lemma rmap_keeps {A B} (g : A -> B) f f0 : keeps f f0 -> keeps (fun s => rmap g (f s)) (fun s => rmap g (f0 s)).
  Proof. intros H s x E. apply rmap_ok in E as (y & E & ->). rewrite (H s y E). reflexivity. Qed.
  Lemma rmap_vkeeps {A B} (g : A -> B) k k0 : vkeeps k k0 -> vkeeps (fun e => rmap g (k e)) (fun e => rmap g (k0 e)).
  Proof. intros H e e' x S E. apply rmap_ok in E as (y & E & ->). rewrite (H e e' y S E). reflexivity. Qed.
  Ltac ev := intros e e' x S E; destruct e; cbn [ev_sim] in S; match type of S with ex _ => destruct S as [sg' ->] | _ => subst e' end; try discriminate E; try exact E.
  Lemma visit_bool_keeps : vkeeps visit_bool visit_bool. Proof. ev. Qed.
  Lemma visit_int_keeps sg w : vkeeps (visit_int sg w) (visit_int sg w). Proof. ev. Qed.
  Lemma visit_char_keeps : vkeeps visit_char visit_char. Proof. ev. Qed.
  Lemma visit_string_keeps : vkeeps visit_string visit_string. Proof. ev. Qed.
  Lemma visit_unit_keeps : vkeeps visit_unit visit_unit. Proof. ev. Qed.
  Lemma de_u8_keeps : keeps de_u8 de_u8. Proof. apply bind_keeps, visit_int_keeps. Qed.
  Lemma mapM_keeps {A} (f : source unit -> result A derr) f0 l x : keeps f f0 -> mapM f0 l = Ok x -> mapM f (map src_un l) = Ok x.
  Proof.
    intros H M. rewrite mapM_map. apply mapM_ok. apply mapM_ok in M. induction M as [|s y l x Hs _ IH]; constructor; [|exact IH]. apply H. exact Hs.
  Qed.
  Lemma visit_vec_keeps {A} (f : source unit -> result A derr) f0 : keeps f f0 -> vkeeps (visit_vec f) (visit_vec f0).
  Proof. intro H. ev. cbn [visit_vec] in *. eapply mapM_keeps; eassumption. Qed.
  Lemma seq_take_keeps {A} (fs : list (source unit -> result A derr)) fs0 : Forall2 keeps fs fs0 -> forall l x r, seq_take fs0 l = Ok (x, r) ->
    seq_take fs (map src_un l) = Ok (x, map src_un r).
  Proof.
    induction 1 as [|f f0 fs fs0 Hf _ IH]; intros l x r E; cbn [seq_take] in *; [injection E as <- <-; reflexivity|].
    destruct l as [|s l]; [discriminate|]. cbn [map]. destruct (f0 s) as [y|] eqn:Ey; [|discriminate]. cbn [bind] in E. rewrite (Hf s y Ey). cbn [bind].
    destruct (seq_take fs0 l) as [[ys r']|] eqn:El; [|discriminate]. cbn [bind fst snd] in E. injection E as <- <-. rewrite (IH l ys r' El). reflexivity.
  Qed.
  Lemma visit_elems_keeps {A} (fs : list (source unit -> result A derr)) fs0 : Forall2 keeps fs fs0 -> vkeeps (visit_elems fs) (visit_elems fs0).
  Proof.
    intro H. ev. cbn [visit_elems] in *. destruct (seq_take fs0 l) as [[y r]|] eqn:El; [|discriminate]. rewrite (seq_take_keeps fs fs0 H l y r El).
    cbn [bind fst snd] in *. destruct r; [exact E|]. cbn [map]. exact E.
  Qed.
  Lemma struct_entries_keeps fs fs0 l : Forall2 (fun a b => fst a = fst b /\ keeps (snd a) (snd b)) fs fs0 -> forall acc x,
    struct_entries fs0 l acc = Ok x -> struct_entries fs (map (fun kv => (fst kv, src_un (snd kv))) l) acc = Ok x.
  Proof.
    intro H. assert (HF : forall k, match find_field k fs, find_field k fs0 with Some f, Some f0 => keeps f f0 | None, None => True | _, _ => False end).
    { intro k. induction H as [|[n f] [n' f'] fs fs0 (H1 & H2) _ IH]; [exact I|]. cbn [fst snd find_field] in *. subst n'. destruct (str_eqb k n); [exact H2|exact IH]. }
    induction l as [|[k s] l IH]; intros acc x E; [exact E|]. cbn [map fst snd struct_entries] in *. specialize (HF k).
    destruct (find_field k fs) as [f|], (find_field k fs0) as [f0|]; try contradiction.
    - destruct (find_field k acc); [discriminate|]. destruct (f0 s) as [y|] eqn:Ey; [|discriminate]. rewrite (HF s y Ey). cbn [bind] in *. apply IH. exact E.
    - rewrite de_ignored_ok in E. rewrite de_ignored_ok. cbn [bind] in *. apply IH. exact E.
  Qed.
  Lemma visit_struct_keeps fs fs0 ms : Forall2 (fun a b => fst a = fst b /\ keeps (snd a) (snd b)) fs fs0 -> vkeeps (visit_struct fs ms) (visit_struct fs0 ms).
  Proof.
    intro H. ev.
    - change (rmap (combine (map fst fs0)) (visit_elems (map snd fs0) (VSeq strict l)) = Ok x) in E.
      change (rmap (combine (map fst fs)) (visit_elems (map snd fs) (VSeq strict (map src_un l))) = Ok x).
      apply rmap_ok in E as (y & E & ->). assert (H' : Forall2 keeps (map snd fs) (map snd fs0)).
      { clear -H. induction H as [|? ? ? ? (_ & H2) _ IH]; cbn [map]; constructor; assumption. }
      rewrite (visit_elems_keeps _ _ H' (VSeq strict l) (VSeq strict (map src_un l)) y eq_refl E). cbn [rmap].
      replace (map fst fs) with (map fst fs0); [reflexivity|]. clear -H. induction H as [|? ? ? ? (H1 & _) _ IH]; [reflexivity|]. cbn [map]. rewrite H1, IH. reflexivity.
    - cbn [visit_struct] in *. destruct (struct_entries fs0 l []) as [acc|] eqn:EE; [|discriminate]. rewrite (struct_entries_keeps fs fs0 l H [] acc EE). exact E.
  Qed.

  Lemma forall_no_values ts : fold_right (fun t' P => no_values t' /\ P) True ts -> Forall no_values ts.
  Proof. induction ts; cbn [fold_right]; [constructor|]. intros []. constructor; auto. Qed.
  Lemma forall_no_values_f (fs : list (str * ty)) : fold_right (fun ft P => match ft with (_, t') => no_values t' end /\ P) True fs -> Forall no_values (map snd fs).
  Proof. induction fs as [|[n t] fs IH]; cbn [fold_right map snd]; [constructor|]. intros []. constructor; auto. Qed.
  Lemma keeps_list ts : Forall (fun t => no_values t -> keeps (de t) (de t)) ts -> Forall no_values ts -> Forall2 keeps (map de ts) (map de ts).
  Proof. induction 1; intro H'; cbn [map]; constructor; inversion H'; subst; auto. Qed.
  Lemma keeps_fields (fs : list (str * ty)) : Forall (fun t => no_values t -> keeps (de t) (de t)) (map snd fs) -> Forall no_values (map snd fs) ->
    Forall2 (fun a b => fst a = fst b /\ keeps (snd a) (snd b)) (map (fun nt => match nt with (n, t') => (n, de t') end) fs) (map (fun nt => match nt with (n, t') => (n, de t') end) fs).
  Proof. induction fs as [|[n t] fs IH]; cbn [map snd]; intros H H'; constructor; inversion H; inversion H'; subst; auto. Qed.

  Theorem de_keeps t : no_values t -> keeps (de t) (de t).
  Proof.
    induction t as [|sg w| | | | |t IH|t IH|ts IH|t IH|t IH| |t IH|ts IH|fs IH|vs IH| | | |] using ty_ind'; intros NV; cbn [de]; cbn [no_values] in NV; try contradiction.
    - apply rmap_keeps, bind_keeps, visit_bool_keeps.
    - apply rmap_keeps, bind_keeps, visit_int_keeps.
    - apply rmap_keeps, bind_keeps, visit_char_keeps.
    - apply rmap_keeps, bind_keeps, visit_string_keeps.
    - apply rmap_keeps, bind_keeps, visit_unit_keeps.
    - apply bind_keeps. ev. apply rmap_ok in E as (y & E & ->). rewrite (mapM_keeps _ _ _ _ de_u8_keeps E). reflexivity.
    - apply bind_keeps. ev. apply rmap_ok in E as (y & E & ->). rewrite (IH NV _ _ E). reflexivity.
    - apply rmap_keeps, bind_keeps, visit_vec_keeps, IH, NV.
    - apply rmap_keeps, bind_keeps, visit_elems_keeps, keeps_list; [exact IH|apply forall_no_values, NV].
    - apply bind_keeps. ev. apply rmap_ok in E as (y & E & ->). rewrite mapM_map. cbn [fst snd].
      match goal with |- rmap _ ?m = _ => assert (M : m = Ok y) end; [|rewrite M; reflexivity]. apply mapM_ok. apply mapM_ok in E.
      induction E as [|kv p l y Hk _ IHl]; constructor; [|exact IHl]. apply rmap_ok in Hk as (z & Hk & ->). rewrite (IH NV _ _ Hk). reflexivity.
    - apply bind_keeps. ev. apply rmap_ok in E as (y & E & ->). rewrite mapM_map. cbn [fst snd].
      match goal with |- rmap _ ?m = _ => assert (M : m = Ok y) end; [|rewrite M; reflexivity]. apply mapM_ok. apply mapM_ok in E.
      induction E as [|kv p l y Hk _ IHl]; constructor; [|exact IHl]. destruct (visit_char (T := T) (VString (fst kv))) as [c|] eqn:Ec; [|discriminate]. cbn [bind] in Hk.
      replace (visit_char (T := unit) (VString (fst kv))) with (@Ok char derr c) by (rewrite <- Ec; reflexivity). cbn [bind].
      apply rmap_ok in Hk as (z & Hk & ->). rewrite (IH NV _ _ Hk). reflexivity.
    - apply rmap_keeps, bind_keeps, visit_unit_keeps.
    - apply bind_keeps. apply (rmap_vkeeps (fun l => XNewtype (match l with x :: _ => x | [] => XUnit end))). apply visit_elems_keeps. constructor; [apply IH, NV|constructor].
    - apply rmap_keeps, bind_keeps, visit_elems_keeps, keeps_list; [exact IH|apply forall_no_values, NV].
    - apply rmap_keeps, bind_keeps, visit_struct_keeps, keeps_fields; [exact IH|apply forall_no_values_f, NV].
    - apply bind_keeps. ev. cbn [visit_enum] in *. rewrite !find_field_map in *. destruct (find_field n vs) as [b|] eqn:Eb; cbn [option_map] in *; [|discriminate].
      apply find_field_In in Eb. rewrite Forall_forall in IH. specialize (IH _ Eb). cbn [snd] in IH.
      assert (NB : Forall no_values (vs_tys b)).
      { clear -NV Eb. induction vs as [|[m b'] vs IHv]; [destruct Eb|]. cbn [fold_right] in NV. destruct NV as [NV NV']. destruct Eb as [Eb|Eb]; [|exact (IHv NV' Eb)].
        injection Eb as -> ->. destruct b; cbn [vs_tys]; [constructor|constructor; [exact NV|constructor]|apply forall_no_values, NV|apply forall_no_values_f, NV]. }
      destruct b as [|t|ts|fs]; cbn [vs_tys vshape_map] in *.
      + destruct (deserialize (SrcComposite c) HUnit) as [e1|] eqn:D; [|discriminate]. cbn [bind] in E. apply rmap_ok in E as ([] & E & ->).
        destruct (deserialize_sim (SrcComposite c) HUnit e1 D) as (e2 & D2 & S2). cbn [src_un] in D2. rewrite D2. cbn [bind]. rewrite (visit_unit_keeps _ _ _ S2 E). reflexivity.
      + apply rmap_ok in E as (y & E & ->). inversion IH as [|? ? H _]; inversion NB as [|? ? HN _]; subst. apply (H HN (SrcComposite c)) in E. cbn [src_un] in E. rewrite E. reflexivity.
      + rewrite !map_length in *. destruct (composite_de c (HTuple (length ts))) as [e1|] eqn:D; [|discriminate]. cbn [bind] in E. apply rmap_ok in E as (y & E & ->).
        destruct (composite_de_sim c (HTuple (length ts)) e1 D) as (e2 & D2 & S2). rewrite D2. cbn [bind]. rewrite (visit_elems_keeps _ _ (keeps_list ts IH NB) _ _ _ S2 E). reflexivity.
      + apply rmap_ok in E as (y & E & ->). rewrite (visit_struct_keeps _ _ _ (keeps_fields fs IH NB) _ _ _ (composite_any_sim c) E). reflexivity.
  Qed.
End Un.

(** ** The text of Rust data *)
Section Say.
  Context (bare : str -> bool).
  Notation say t := (forall d v, no_values t -> of_type t d -> sayable bare d -> to_value_sd (ser t d) = Ok v -> text_ok bare v = true).

  Lemma say_int sg w z v : In w [8; 16; 32; 64; 128]%N -> in_int sg w z = true -> to_value_sd (SInt sg w z) = Ok v -> text_ok bare v = true.
  Proof.
    intros HW HR H. unfold in_int in HR. destruct sg; cbn [to_value_sd] in H; injection H as <-; cbn [text_ok vi128 vu128 primitive prim_wf];
      apply andb_true_iff in HR as [H1 H2]; rewrite Z.leb_le in H1; rewrite Z.ltb_lt in H2.
    - apply andb_true_intro. rewrite Z.leb_le, Z.ltb_lt. destruct HW as [<-|[<-|[<-|[<-|[<-|[]]]]]]; cbn in H1, H2; lia.
    - apply N.ltb_lt. destruct HW as [<-|[<-|[<-|[<-|[<-|[]]]]]]; cbn in H2; lia.
  Qed.
  Lemma say_list ts : Forall (fun t => ty_wf t -> say t) ts -> Forall ty_wf ts -> Forall no_values ts -> forall l vs, all2 apply_to (map of_type ts) l ->
    fold_right (fun x P => sayable bare x /\ P) True l -> mapM to_value_sd (zip_app (map ser ts) l) = Ok vs -> forallb (text_ok bare) vs = true.
  Proof.
    induction 1 as [|t ts Ht _ IH]; intros HW HN [|d l] vs HA HS HM; cbn [map all2 zip_app mapM fold_right] in *; try contradiction; [injection HM as <-; reflexivity|].
    destruct HA as [HA HA'], HS as [HS HS']. inversion HW; inversion HN; subst. destruct (to_value_sd (ser t d)) as [v|] eqn:E; [|discriminate]. cbn [bind] in HM. apply rmap_ok in HM as (ws & HM & ->).
    cbn [forallb]. rewrite (Ht ltac:(assumption) d v) by assumption. cbn [andb]. eapply IH; eassumption.
  Qed.
  Lemma say_fields (fs : list (str * ty)) : Forall (fun t => ty_wf t -> say t) (map snd fs) -> Forall ty_wf (map snd fs) -> Forall no_values (map snd fs) -> forall (l : list (str * data)) vs, map fst l = map fst fs ->
    all2 apply_to (map (fun nt : str * ty => match nt with (_, t') => of_type t' end) fs) (map snd l) ->
    fold_right (fun (kx : str * data) P => (let (k, x) := kx in sayable bare x) /\ P) True l ->
    mapM (fun nx : str * sd => match nx with (n, x) => bind (to_value_sd x) (fun v => Ok (n, v)) end)
         (zip_named (map (fun nt : str * ty => match nt with (_, t') => ser t' end) fs) l) = Ok vs ->
    forallb (fun kv => text_ok bare (snd kv)) vs = true.
  Proof.
    induction fs as [|[n t] fs IH]; intros HR HW HN [|[n' d] l] vs HE HA HS HM; cbn [map fst snd] in *; try discriminate HE.
    - cbn [zip_named mapM] in HM. injection HM as <-. reflexivity.
    - cbn [all2 zip_named mapM fold_right] in *. destruct HA as [HA HA'], HS as [HS HS']. inversion HW; inversion HN; inversion HR as [|? ? Ht ?]; subst. injection HE as -> HE.
      destruct (to_value_sd (ser t d)) as [v|] eqn:E; [|discriminate]. cbn [bind] in HM. apply rmap_ok in HM as (ws & HM & ->).
      cbn [forallb snd]. rewrite (Ht ltac:(assumption) d v) by assumption. cbn [andb]. eapply IH; eassumption.
  Qed.
  Lemma say_vec t l vs : say t -> no_values t -> Forall (of_type t) l -> fold_right (fun x P => sayable bare x /\ P) True l -> mapM to_value_sd (map (ser t) l) = Ok vs -> forallb (text_ok bare) vs = true.
  Proof.
    intros Ht HN HF. revert vs. induction HF as [|d l Hd _ IH]; intros vs HS HM; cbn [map mapM fold_right] in *; [injection HM as <-; reflexivity|]. destruct HS as [HS HS'].
    destruct (to_value_sd (ser t d)) as [v|] eqn:E; [|discriminate]. cbn [bind] in HM. apply rmap_ok in HM as (ws & HM & ->).
    cbn [forallb]. rewrite (Ht d v) by assumption. cbn [andb]. apply IH; assumption.
  Qed.
  Lemma say_map t (key : str -> sd) l vs : say t -> no_values t -> Forall (fun kv => of_type t (snd kv)) l ->
    fold_right (fun (kx : str * data) P => (let (k, x) := kx in forallb is_scalar k = true /\ sayable bare x) /\ P) True l ->
    mapM (fun kv => match kv with (k, x) => bind (to_value_sd k) (fun kk => bind (key_of kk) (fun s => bind (to_value_sd x) (fun v => Ok (s, v)))) end)
      (map (fun kv : str * data => (key (fst kv), ser t (snd kv))) l) = Ok vs -> forallb (fun kv => text_ok bare (snd kv)) vs = true.
  Proof.
    intros Ht HN HF. revert vs. induction HF as [|[k d] l Hd _ IH]; intros vs HS HM; cbn [map mapM fold_right fst snd] in *; [injection HM as <-; reflexivity|]. destruct HS as [[_ HS] HS'].
    destruct (to_value_sd (key k)) as [kk|]; [|discriminate]. cbn [bind] in HM. destruct (key_of kk) as [s|]; [|discriminate]. cbn [bind] in HM.
    destruct (to_value_sd (ser t d)) as [v|] eqn:E; [|discriminate]. cbn [bind] in HM. apply rmap_ok in HM as (ws & HM & ->).
    cbn [forallb snd]. rewrite (Ht d v) by assumption. cbn [andb]. apply IH; assumption.
  Qed.

  Theorem say_all t : ty_wf t -> say t.
  Proof.
    induction t as [|sg w| | | | |t IH|t IH|ts IH|t IH|t IH| |t IH|ts IH|fs IH|vs IH| | | |] using ty_ind'; intros WF d v NV OT SY TV; cbn [ty_wf no_values of_type ser] in *; try contradiction.
    - destruct OT as (b & ->). cbn [to_value_sd] in TV. injection TV as <-. reflexivity.
    - destruct OT as (z & -> & HR). eapply say_int; eassumption.
    - destruct OT as (c & ->). cbn [to_value_sd] in TV. injection TV as <-. exact SY.
    - destruct OT as (s & ->). cbn [to_value_sd] in TV. injection TV as <-. exact SY.
    - subst d. cbn [to_value_sd] in TV. injection TV as <-. reflexivity.
    - destruct OT as (b & -> & HB). cbn [to_value_sd] in TV. injection TV as <-. cbn [text_ok unnamed_composite]. apply forallb_forall. intros x HI. apply in_map_iff in HI as (n & <- & HI).
      rewrite Forall_forall in HB. specialize (HB n HI). cbn [text_ok vu128 primitive prim_wf]. apply N.ltb_lt. lia.
    - assert (NN : bare (s2l "None") && bool_like (s2l "None") = false) by (rewrite andb_comm; reflexivity).
      assert (NS : bare (s2l "Some") && bool_like (s2l "Some") = false) by (rewrite andb_comm; reflexivity).
      destruct OT as [->|(x & -> & OT)]; cbn [to_value_sd] in TV; [assert (EV : v = unnamed_variant (s2l "None") []) by congruence; subst v; unfold unnamed_variant; cbn [text_ok forallb]; rewrite NN; reflexivity|].
      destruct (to_value_sd (ser t x)) as [w|] eqn:E; [|discriminate]. cbn [bind] in TV. assert (EV : v = unnamed_variant (s2l "Some") [w]) by congruence. subst v. unfold unnamed_variant. cbn [text_ok forallb]. rewrite NS, (IH WF x w NV OT SY E). reflexivity.
    - destruct OT as (l & -> & OT). cbn [to_value_sd] in TV. apply rmap_ok in TV as (vs & TV & ->). cbn [text_ok unnamed_composite]. eapply say_vec; [exact (IH WF)|eassumption..].
    - destruct OT as (l & -> & OT). cbn [to_value_sd] in TV. apply rmap_ok in TV as (vs & TV & ->). cbn [text_ok unnamed_composite].
      eapply say_list; [exact IH|apply all_wf_forall, WF|apply forall_no_values, NV|eassumption..].
    - destruct OT as (l & -> & _ & OT). cbn [to_value_sd] in TV. apply rmap_ok in TV as (vs & TV & ->). cbn [text_ok named_composite].
      exact (say_map t SStr l vs (IH WF) NV OT SY TV).
    - destruct OT as (l & -> & _ & OT). cbn [to_value_sd] in TV. apply rmap_ok in TV as (vs & TV & ->). cbn [text_ok named_composite].
      eapply (say_map t (fun k => SChar (hd 0%N k)) l vs (IH WF) NV); [|exact SY|exact TV]. eapply Forall_impl; [|exact OT]. intros kv []. assumption.
    - subst d. cbn [to_value_sd] in TV. injection TV as <-. reflexivity.
    - destruct WF as [_ WF]. destruct OT as (l & -> & OT). cbn [to_value_sd] in TV. apply rmap_ok in TV as (vs & TV & ->). cbn [text_ok unnamed_composite].
      eapply say_list; [exact IH|apply all_wf_forall, WF|apply forall_no_values, NV|eassumption..].
    - destruct WF as [_ WF]. destruct OT as (l & -> & HE & OT). cbn [to_value_sd] in TV. apply rmap_ok in TV as (vs & TV & ->). cbn [text_ok named_composite].
      eapply say_fields; [exact IH|apply all_wf_fields, WF|apply forall_no_values_f, NV|eassumption..].
    - destruct OT as (n & b & -> & OT). destruct SY as [SN SY]. change (match find_field n (map (fun nb => match nb with (m, b') => (m, of_body b') end) vs) with Some P => P b | None => False end) in OT.
      change (to_value_sd (match find_field n (map (fun nb => match nb with (m, b') => (m, Spec_Rust.shape_map ser b') end) vs) with Some body => ser_variant_body n body b | None => SFloat end) = Ok v) in TV.
      rewrite (find_field_map of_body) in OT. rewrite (find_field_map (Spec_Rust.shape_map ser)) in TV. destruct (find_field n vs) as [b0|] eqn:Eb; cbn [option_map] in *; [|contradiction].
      apply find_field_In in Eb. rewrite Forall_forall in IH. specialize (IH _ Eb). cbn [snd] in IH.
      assert (NB : Forall no_values (vs_tys b0)).
      { clear -NV Eb. induction vs as [|[m b'] vs IHv]; [destruct Eb|]. cbn [fold_right] in NV. destruct NV as [NV NV']. destruct Eb as [Eb|Eb]; [|exact (IHv NV' Eb)].
        injection Eb as -> ->. destruct b0; cbn [vs_tys]; [constructor|constructor; [exact NV|constructor]|apply forall_no_values, NV|apply forall_no_values_f, NV]. }
      assert (WB : match b0 with VsUnit => True | VsNewtype _ => False | VsTuple l => Forall ty_wf l | VsStruct l => Forall ty_wf (map snd l) end).
      { destruct WF as [_ WF]. clear -WF Eb. induction vs as [|[m b'] vs IHv]; [destruct Eb|]. cbn [fold_right] in WF. destruct WF as [WF WF']. destruct Eb as [Eb|Eb]; [|exact (IHv WF' Eb)].
        injection Eb as -> ->. destruct b0; auto; destruct WF as [_ WF]; [apply all_wf_forall, WF|apply all_wf_fields, WF]. }
      destruct b0 as [|t0|ts|fs]; cbn [of_body Spec_Rust.shape_map vs_tys] in *.
      + subst b. cbn [ser_variant_body to_value_sd] in TV. injection TV as <-. cbn [text_ok unnamed_variant]. rewrite SN. reflexivity.
      + contradiction.
      + destruct OT as (l & -> & OT). cbn [ser_variant_body to_value_sd] in TV. apply rmap_ok in TV as (ws & TV & ->). cbn [text_ok unnamed_variant]. rewrite SN. cbn [negb andb].
        eapply say_list; eassumption.
      + destruct OT as (l & -> & HE & OT). cbn [ser_variant_body to_value_sd] in TV. apply rmap_ok in TV as (ws & TV & ->). cbn [text_ok named_variant]. rewrite SN. cbn [negb andb].
        eapply say_fields; [exact IH|exact WB|exact NB|exact HE|exact OT|exact SY|]. rewrite <- TV. rewrite pair_map, pair_map1. reflexivity.
  Qed.
End Say.
