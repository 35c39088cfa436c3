(** * GrowthFacts: lemmas for C100 (types that grow). *)
From Verif Require Import Base Value ValueFacts Chars Registry Spec_Scale Scale ScaleFacts Decode DecodeFacts Encode ShapeFacts Spec_Growth.
Local Open Scope N_scope.

Section Facts.
  Context {TId : Type} (added : str -> Prop) (reg reg' : TId -> resolution TId) (X : ext).

  Lemma grown_find_index used (vs ws : list (vinfo TId)) : grown added used vs ws -> incl (map vi_index vs) used -> forall i,
    match find (fun v => vi_index v =? i) vs, find (fun v => vi_index v =? i) ws with
    | Some v, Some w => v = w
    | None, None => True
    | None, Some w => added (vi_name w)
    | Some _, None => False
    end.
  Proof.
    induction 1 as [|v vs ws HG IH|w vs ws HA HN HG IH]; intros HI i; cbn [find]; [exact I| |].
    - destruct (vi_index v =? i) eqn:E; [reflexivity|]. apply IH. intros k Hk. apply HI. right. exact Hk.
    - specialize (IH HI i). destruct (vi_index w =? i) eqn:E; [|exact IH]. apply N.eqb_eq in E. subst i.
      destruct (find _ vs) as [v|] eqn:Ef; [|exact HA]. apply find_some in Ef as [Hin Ef]. apply N.eqb_eq in Ef.
      exfalso. apply HN, HI. rewrite <- Ef. apply in_map, Hin.
  Qed.
  Lemma grown_find_name used (vs ws : list (vinfo TId)) n : grown added used vs ws -> ~ added n ->
    find (fun v => str_eqb (vi_name v) n) vs = find (fun v => str_eqb (vi_name v) n) ws.
  Proof.
    intros HG HA. induction HG as [|v vs ws HG IH|w vs ws HW HN HG IH]; cbn [find]; [reflexivity|rewrite IH; reflexivity|].
    destruct (str_eqb (vi_name w) n) eqn:E; [|exact IH]. apply str_eqb_eq in E. subst n. contradiction.
  Qed.

  (** ** Decoding *)
  Section Dec.
    Context {C : Type} (ctxf : TId -> C) (bad : derr -> Prop).
    (** What the old registry says about what the new one reads: the same, or one of the [bad] errors. *)
    Definition close {A} (MA : A -> Prop) (o n : dres A) : Prop :=
      (forall r, o = Ok r -> n = Ok r) /\ (forall r, n = Ok r -> o = Ok r \/ exists e, o = Err e /\ bad e /\ (e = EVariantNotFound -> MA (fst r))).
    Notation M := (mentions added : value C -> Prop).

    Lemma close_refl {A} (MA : A -> Prop) (r : dres A) : close MA r r.
    Proof. split; [intros x Hx; exact Hx|]. intros x Hx. left. exact Hx. Qed.
    Lemma close_bind {A B} (MA : A -> Prop) (MB : B -> Prop) (o n : dres A) (k k' : A * bytes -> dres B) : close MA o n ->
      (forall x, close MB (k x) (k' x)) -> (forall x y, MA (fst x) -> k' x = Ok y -> MB (fst y)) -> close MB (bind o k) (bind n k').
    Proof.
      intros [H1 H2] HK HM. split; intros r Hr.
      - destruct o as [x|e]; [|discriminate]. rewrite (H1 x eq_refl). cbn [bind] in *. apply (HK x), Hr.
      - destruct n as [x|e]; [|discriminate]. destruct (H2 x eq_refl) as [->|(e & -> & HB & HE)]; cbn [bind] in *; [apply (HK x), Hr|].
        right. exists e. split; [reflexivity|]. split; [exact HB|]. intro E. eapply HM; [exact (HE E)|exact Hr].
    Qed.

    Section Loops.
      Context (d d' : TId -> bytes -> dres (value C)) (Hd : forall t bs, close M (d t bs) (d' t bs)).
      Definition Ms (l : list (value C)) : Prop := exists v, In v l /\ mentions added v.
      Lemma items_close ts : forall bs, close Ms (decode_items d ts bs) (decode_items d' ts bs).
      Proof.
        induction ts as [|t ts IH]; intro bs; cbn [decode_items]; [apply close_refl|].
        eapply close_bind; [apply Hd| |].
        - intro x. eapply close_bind; [apply IH|intro; apply close_refl|]. intros y z (v & Hv & HV) Hz. injection Hz as <-. exists v. split; [right; exact Hv|exact HV].
        - intros x y HX Hy. destruct (decode_items d' ts (snd x)) as [z|]; [|discriminate]. injection Hy as <-. exists (fst x). split; [left; reflexivity|exact HX].
      Qed.
      Lemma named_close fs : forall bs, close (fun l => Ms (map snd l)) (decode_named d fs bs) (decode_named d' fs bs).
      Proof.
        induction fs as [|[n t] fs IH]; intro bs; cbn [decode_named]; [apply close_refl|].
        eapply close_bind; [apply Hd| |].
        - intro x. eapply close_bind; [apply IH|intro; apply close_refl|]. intros y z (v & Hv & HV) Hz. injection Hz as <-. exists v. split; [right; exact Hv|exact HV].
        - intros x y HX Hy. destruct (decode_named d' fs (snd x)) as [z|]; [|discriminate]. injection Hy as <-. exists (fst x). split; [left; reflexivity|exact HX].
      Qed.
      Lemma composite_close fs bs : close (fun c => Ms (values c)) (visit_composite d fs bs) (visit_composite d' fs bs).
      Proof.
        unfold visit_composite. destruct ((0 <? length fs)%nat && negb (has_unnamed fs)).
        - eapply close_bind; [apply named_close|intro; apply close_refl|]. intros x y HX Hy. injection Hy as <-. exact HX.
        - eapply close_bind; [apply items_close|intro; apply close_refl|]. intros x y HX Hy. injection Hy as <-. exact HX.
      Qed.
      Lemma unnamed_close t ts bs : close M (to_unnamed ctxf d t ts bs) (to_unnamed ctxf d' t ts bs).
      Proof.
        unfold to_unnamed. eapply close_bind; [apply items_close|intro; apply close_refl|]. intros x y (v & Hv & HV) Hy. injection Hy as <-.
        eapply M_in; [exact Hv|exact HV].
      Qed.
    End Loops.

    Context (HU : forall t, later added (reg t) (reg' t) \/ reg t = ResNotFound /\ bad EIdNotFound \/ reg t = ResErr /\ bad ETypeResolving) (HB : bad EVariantNotFound).
    Lemma decode_close fuel : forall cm t bs, close M (decode reg X ctxf fuel cm t bs) (decode reg' X ctxf fuel cm t bs).
    Proof.
      induction fuel as [|f IH]; intros cm t bs; cbn [decode]; [apply close_refl|].
      destruct (HU t) as [HL|[[-> HE]|[-> HE]]].
      2,3: split; [discriminate|]; intros r _; right; eexists; (split; [reflexivity|]); split; [exact HE|discriminate].
      destruct HL as [r|vs ws HG].
      - destruct r as [| |[fs|vs|t'|t' n|ts|p|t'|st o]]; try apply close_refl.
        + destruct (cm && _); [apply close_refl|]. eapply close_bind; [apply composite_close, IH|intro; apply close_refl|].
          intros x y (v & Hv & HV) Hy. injection Hy as <-. eapply M_in; [exact Hv|exact HV].
        + destruct cm; [apply close_refl|]. destruct bs as [|i bs]; [apply close_refl|]. destruct (find _ vs) as [v|]; [|apply close_refl].
          eapply close_bind; [apply composite_close, IH|intro; apply close_refl|].
          intros x y (w & Hv & HV) Hy. injection Hy as <-. eapply M_in; [exact Hv|exact HV].
        + destruct cm; [apply close_refl|]. eapply close_bind with (MA := fun _ => False); [apply close_refl| |contradiction].
          intro x. apply unnamed_close, IH.
        + destruct cm; [apply close_refl|]. apply unnamed_close, IH.
        + destruct (cm && _); [apply close_refl|]. apply unnamed_close, IH.
        + apply IH.
      - destruct cm; [apply close_refl|]. destruct bs as [|i bs]; [apply close_refl|].
        pose proof (grown_find_index _ vs ws HG (fun k Hk => Hk) i) as HF.
        destruct (find _ vs) as [v|], (find _ ws) as [w|]; try contradiction; [| |apply close_refl].
        + subst w. eapply close_bind; [apply composite_close, IH|intro; apply close_refl|].
          intros x y (w & Hv & HV) Hy. injection Hy as <-. eapply M_in; [exact Hv|exact HV].
        + split; [discriminate|]. intros r Hr. right. eexists. split; [reflexivity|]. split; [exact HB|]. intros _.
          apply bind_ok in Hr as ([c r'] & _ & Hr). injection Hr as <-. apply M_here, HF.
    Qed.
  End Dec.

  (** ** Encoding *)
  Section Enc.
    Context (H : widened added reg reg') (F : nat).
    Notation enc := (@encoder TId).
    Definition eeq (e e' : enc) : Prop := forall t out, e t out = e' t out.
    Definition seq (x y : option str * enc) : Prop := fst x = fst y /\ eeq (snd x) (snd y).

    Lemma single_eq fuel : forall t b, find_single reg fuel t b = find_single reg' fuel t b.
    Proof.
      induction fuel as [|f IH]; intros t b; cbn [find_single]; [reflexivity|]. destruct (H t) as [r|vs ws HG]; [|reflexivity].
      destruct r as [| |[fs|vs|t'|t' n|ts|p|t'|st o]]; try reflexivity.
      - destruct fs as [|? [|? ?]]; [reflexivity|apply IH|reflexivity].
      - destruct (n =? 1); [apply IH|reflexivity].
      - destruct ts as [|? [|? ?]]; [reflexivity|apply IH|reflexivity].
    Qed.
    Lemma skip_eq fuel : forall t, skip_through reg fuel t = skip_through reg' fuel t.
    Proof.
      induction fuel as [|f IH]; intros t; cbn [skip_through]; [reflexivity|]. destruct (H t) as [r|vs ws HG]; [|reflexivity].
      destruct r as [| |[fs|vs|t'|t' n|ts|p|t'|st o]]; try reflexivity.
      - destruct fs as [|[[?|] ?] [|? ?]]; try reflexivity. apply IH.
      - destruct ts as [|? [|? ?]]; try reflexivity. apply IH.
    Qed.
    Lemma number_eq z : eeq (encode_number reg F z) (encode_number reg' F z).
    Proof.
      intros t out. unfold encode_number. rewrite single_eq. destruct (find_single reg' F t false) as [[t1 b]|]; [|reflexivity].
      destruct (H t1) as [r|vs ws HG]; [|reflexivity]. destruct r as [| |[fs|vs|t'|t' n|ts|p|t'|st o]]; try reflexivity.
      rewrite single_eq. destruct (find_single reg' F t' false) as [[t2 c]|]; [|reflexivity]. destruct (H t2) as [r|vs ws HG]; reflexivity.
    Qed.
    Lemma leaf_eq f : (forall vs, f (TVariant vs) = None) -> eeq (encode_leaf reg F f) (encode_leaf reg' F f).
    Proof.
      intros Hf t out. unfold encode_leaf. rewrite single_eq. destruct (find_single reg' F t false) as [[t1 b]|]; [|reflexivity].
      destruct (H t1) as [r|vs ws HG]; [reflexivity|]. rewrite !Hf. reflexivity.
    Qed.
    Lemma char_eq c : eeq (encode_char reg X F c) (encode_char reg' X F c).
    Proof.
      intros t out. unfold encode_char. rewrite single_eq, number_eq. destruct (find_single reg' F t false) as [[t1 b]|]; [|reflexivity].
      destruct (H t1) as [r|vs ws HG]; reflexivity.
    Qed.
    Lemma all_eq es es' : Forall2 eeq es es' -> forall t out, encode_all es t out = encode_all es' t out.
    Proof.
      induction 1 as [|e e' es es' HE _ IH]; intros t out; cbn [encode_all]; [reflexivity|]. rewrite (HE t out).
      destruct (e' t out) as [[|k|] o]; cbn [andthen]; [apply IH|reflexivity|reflexivity].
    Qed.
    Lemma numbers_eq (b : bytes) : Forall2 eeq (map (fun x => encode_number reg F (Z.of_N x)) b) (map (fun x => encode_number reg' F (Z.of_N x)) b).
    Proof. induction b; cbn [map]; constructor; [apply number_eq|assumption]. Qed.
    Lemma byte_array_eq b fuel : eeq (encode_byte_array reg X F fuel b) (encode_byte_array reg' X F fuel b).
    Proof.
      induction fuel as [|f IH]; intros t out; cbn [encode_byte_array]; [reflexivity|].
      destruct (H t) as [r|vs ws HG]; [|reflexivity]. destruct r as [| |[fs|vs|t'|t' n|ts|p|t'|st o]]; try reflexivity.
      - destruct fs as [|? [|? ?]]; [reflexivity|apply IH|reflexivity].
      - apply all_eq, numbers_eq.
      - destruct (_ =? n); [|reflexivity]. apply all_eq, numbers_eq.
      - destruct ts as [|? [|? ?]]; [reflexivity|apply IH|reflexivity].
    Qed.
    Lemma primitive_eq p : eeq (encode_primitive reg X F p) (encode_primitive reg' X F p).
    Proof.
      destruct p; cbn [encode_primitive]; try apply number_eq; try apply byte_array_eq; try apply char_eq; apply leaf_eq; reflexivity.
    Qed.
    Lemma lookup_eq n src src' : Forall2 seq src src' ->
      match lookup_last n src, lookup_last n src' with Some x, Some y => eeq x y | None, None => True | _, _ => False end.
    Proof.
      induction 1 as [|[nx ex] [ny ey] s1 s2 [HN HE] _ IH]; cbn [lookup_last]; [exact I|]. cbn [fst snd] in HN, HE. subst ny.
      destruct (lookup_last n s1), (lookup_last n s2); try contradiction; [exact IH|]. unfold key_of. cbn [fst snd]. destruct (str_eqb _ n); [exact HE|exact I].
    Qed.
    Lemma by_name_eq src src' fs : Forall2 seq src src' -> forall out, encode_by_name src fs out = encode_by_name src' fs out.
    Proof.
      intro HS. induction fs as [|f fs IH]; intro out; cbn [encode_by_name]; [reflexivity|]. pose proof (lookup_eq (key_of f) _ _ HS) as L.
      destruct (lookup_last (key_of f) src) as [e1|], (lookup_last (key_of f) src') as [e2|]; try contradiction; [|reflexivity].
      rewrite (L _ out). destruct (e2 (snd f) out) as [[|e|] o]; cbn [andthen]; [apply IH|reflexivity|reflexivity].
    Qed.
    Lemma in_order_eq es es' : Forall2 eeq es es' -> forall ts out, encode_in_order es ts out = encode_in_order es' ts out.
    Proof.
      induction 1 as [|e e' es es' HE _ IH]; intros ts out; [reflexivity|]. destruct ts as [|t ts]; cbn [encode_in_order]; [reflexivity|].
      rewrite (HE t out). destruct (e' t out) as [[|k|] o]; cbn [andthen]; [apply IH|reflexivity|reflexivity].
    Qed.
    Lemma fields_eq src src' fs out : Forall2 seq src src' -> encode_fields src fs out = encode_fields src' fs out.
    Proof.
      intro HS. unfold encode_fields. rewrite (f2_len _ _ _ HS).
      replace (existsb named_field src) with (existsb named_field src') by (symmetry; eapply f2_existsb; [|exact HS]; intros x y [E _]; unfold named_field; rewrite E; reflexivity).
      destruct (existsb named_field fs && existsb named_field src'); [apply by_name_eq; assumption|].
      destruct (length fs =? length src')%nat; [|reflexivity]. apply in_order_eq. eapply f2_map; [|exact HS]. intros x y [_ E]. exact E.
    Qed.
    Lemma struct_eq src src' : Forall2 seq src src' -> eeq (encode_struct reg F src) (encode_struct reg' F src').
    Proof.
      intros HS t out. unfold encode_struct. rewrite skip_eq. destruct (skip_through reg' F t) as [t1|]; [|reflexivity].
      assert (single : forall d1 d2 : eres, d1 = d2 -> match src with [(_, e)] => e t1 out | _ => d1 end = match src' with [(_, e)] => e t1 out | _ => d2 end).
      { intros d1 d2 Hd. destruct HS as [|[n e1] [n' e2] s1 s2 [_ HE] HS]; [exact Hd|]. destruct HS; [apply HE|exact Hd]. }
      destruct (H t1) as [r|vs ws HG]; [|apply single; reflexivity].
      destruct r as [| |[fs|vs|t'|t' n|ts|p|t'|st o]]; try (apply single; reflexivity); [reflexivity| |].
      - pose proof (fields_eq src src' fs out HS) as HF. destruct HS as [|[n e1] [n' e2] s1 s2 [HN HE] HS]; [exact HF|]. cbn [fst snd] in HN, HE. subst n'.
        destruct n; [exact HF|]. destruct HS; [apply HE|exact HF].
      - apply single, fields_eq, HS.
    Qed.

    Section Values.
      Context {T : Type}.
      Notation item := (value T * enc)%type.
      Definition ieq (x y : item) : Prop := fst x = fst y /\ eeq (snd x) (snd y).
      (** The same composite with encoders that agree. *)
      Definition ceq (c : composite (value T)) (f f' : value T -> enc) : Prop := forall v, In v (values c) -> eeq (f v) (f' v).
      Notation with_enc f c := (composite_map (fun x => (x, f x)) c).

      Lemma values_eq c f f' : ceq c f f' -> Forall2 ieq (values (with_enc f c)) (values (with_enc f' c)).
      Proof.
        intro HC. unfold ceq in HC. destruct c as [l|l]; cbn [composite_map values] in *; [rewrite !map_map|]; induction l as [|x l IH]; cbn [map]; constructor.
        1,3: split; [reflexivity|]; apply HC; left; reflexivity.
        all: apply IH; intros v Hv; apply HC; right; exact Hv.
      Qed.
      Lemma source_eq c f f' : ceq c f f' -> Forall2 seq (source_fields (composite_map snd (with_enc f c))) (source_fields (composite_map snd (with_enc f' c))).
      Proof.
        intro HC. unfold ceq in HC. destruct c as [l|l]; cbn [composite_map source_fields values] in *; rewrite !map_map; induction l as [|x l IH]; cbn [map]; constructor.
        1,3: split; [reflexivity|]; apply HC; left; reflexivity.
        all: apply IH; intros v Hv; apply HC; right; exact Hv.
      Qed.
      Lemma do_encode_eq c f f' : ceq c f f' -> eeq (do_encode reg F (with_enc f c)) (do_encode reg' F (with_enc f' c)).
      Proof.
        intros HC t out. pose proof (values_eq _ _ _ HC) as HV. pose proof (source_eq _ _ _ HC) as HS. unfold do_encode.
        rewrite <- !values_len, (f2_len _ _ _ HV).
        assert (single : match values (with_enc f c) with [x] => snd x t out | _ => (SErr XWrongShape, out) end = match values (with_enc f' c) with [x] => snd x t out | _ => (SErr XWrongShape, out) end).
        { destruct HV as [|x y l m [_ HE] HF]; [reflexivity|]. destruct HF; [apply HE|reflexivity]. }
        assert (all : forall t' o, encode_all (map snd (values (with_enc f c))) t' o = encode_all (map snd (values (with_enc f' c))) t' o).
        { apply all_eq. eapply f2_map; [|exact HV]. intros x y [_ E]. exact E. }
        pose proof (struct_eq _ _ HS t out) as HT.
        destruct (H t) as [r|vs ws HG]; [|exact single].
        destruct r as [| |[fs|vs|t'|t' n|ts|p|t'|st o]]; try exact single; [reflexivity|exact HT|apply all| |exact HT|].
        - destruct (_ =? n); [apply all|reflexivity].
        - replace (map fst (values (with_enc f' c))) with (map fst (values (with_enc f c))); [reflexivity|].
          clear - HV. induction HV as [|x y l m [E _] _ IH]; cbn [map]; [reflexivity|]. rewrite E, IH. reflexivity.
      Qed.
      Lemma encode_composite_eq c f f' : ceq c f f' -> eeq (encode_composite reg F (with_enc f c)) (encode_composite reg' F (with_enc f' c)).
      Proof.
        intros HC t out. unfold encode_composite. rewrite (do_encode_eq _ _ _ HC t []). destruct (do_encode reg' F (with_enc f' c) t []) as [[|e|] tmp]; try reflexivity.
        rewrite single_eq. destruct (find_single reg' F t false) as [[t1 b]|]; [|reflexivity].
        rewrite (do_encode_eq _ _ _ HC t1 []). destruct (if b then _ else _) as [[|e'|] tmp']; try reflexivity.
        destruct (values_eq _ _ _ HC) as [|x y l m [_ HE] HF]; [reflexivity|]. destruct HF; [|reflexivity]. rewrite (HE t1 []). reflexivity.
      Qed.
      Lemma encode_variant_eq n c f f' : ~ added n -> ceq c f f' -> eeq (encode_variant reg F n (with_enc f c)) (encode_variant reg' F n (with_enc f' c)).
      Proof.
        intros HA HC t out. unfold encode_variant. rewrite skip_eq. destruct (skip_through reg' F t) as [t1|]; [|reflexivity].
        destruct (H t1) as [r|vs ws HG].
        - destruct r as [| |[fs|vs|t'|t' k|ts|p|t'|st o]]; try reflexivity. destruct (find _ vs); [|reflexivity]. apply fields_eq, source_eq, HC.
        - rewrite (grown_find_name _ vs ws n HG HA). destruct (find _ ws); [|reflexivity]. apply fields_eq, source_eq, HC.
      Qed.
      Lemma encode_eq (v : value T) : ~ mentions added v -> eeq (encode reg X F v) (encode reg' X F v).
      Proof.
        induction v as [d ctx IH] using value_ind'. intro HM. rewrite Forall_forall in IH.
        assert (HC : forall x, In x (children d) -> eeq (encode reg X F x) (encode reg' X F x)).
        { intros x Hx. apply IH; [exact Hx|]. intro M. apply HM. eapply M_in; [exact Hx|exact M]. }
        destruct d as [c|n c|b|p]; cbn [children] in HC; cbn [encode].
        - exact (encode_composite_eq c (encode reg X F) (encode reg' X F) HC).
        - apply (encode_variant_eq n c (encode reg X F) (encode reg' X F)); [|exact HC]. intro A. apply HM, M_here, A.
        - apply leaf_eq. reflexivity.
        - apply primitive_eq.
      Qed.
      Lemma encode_fields_eq (v : value T) fs out : ~ mentions added v -> encode_as_fields reg X F v fs out = encode_as_fields reg' X F v fs out.
      Proof.
        destruct v as [d ctx]. intro HM. unfold encode_as_fields. cbn [vdef_of]. destruct d as [c|n c|b|p]; try reflexivity.
        unfold encode_composite_as_fields. apply fields_eq.
        assert (HC : forall x, In x (values c) -> eeq (encode reg X F x) (encode reg' X F x)).
        { intros x Hx. apply encode_eq. intro M. apply HM. eapply M_in; [exact Hx|exact M]. }
        destruct c as [l|l]; cbn [composite_map source_fields values] in *; rewrite !map_map; induction l as [|x l IH]; cbn [map]; constructor.
        1,3: split; [reflexivity|]; apply HC; left; reflexivity.
        all: apply IH; [|intros y Hy; apply HC; right; exact Hy]; intro M; apply HM; inversion M as [|? ? y Hy HY]; subst; eapply M_in; [right; exact Hy|exact HY].
      Qed.
    End Values.
  End Enc.
End Facts.
