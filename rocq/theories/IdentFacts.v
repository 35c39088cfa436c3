(** * IdentFacts: values decoded at one type that are printed alike (C108). *)
From Verif Require Import Base Value ValueFacts Spec_Fmt Registry Spec_Scale Spec_Decode Spec_Encode Scale ScaleFacts DecodeFacts DecodeMore EncodeSound MigrateFacts Spec_Edit EditFacts EditTextFacts.
Local Open Scope N_scope.

Lemma shape_eq {A B} (f : A -> B) (c1 c2 : composite A) : composite_map f c1 = composite_map f c2 -> values c1 = values c2 -> c1 = c2.
Proof.
  destruct c1 as [l1|l1], c2 as [l2|l2]; cbn [composite_map values]; intros H V; try discriminate; f_equal; [|exact V]. injection H as H.
  revert l2 H V. induction l1 as [|[k x] l1 IH]; intros [|[k2 x2] l2] H V; cbn [map fst snd] in *; try discriminate; [reflexivity|].
  injection H as -> _ H. injection V as -> V. f_equal. auto.
Qed.
Lemma comp_map_values {A B} (f : A -> B) (c1 c2 : composite A) : composite_map f c1 = composite_map f c2 -> map f (values c1) = map f (values c2).
Proof. intro H. apply (f_equal values) in H. rewrite !comp_map_vals in H. exact H. Qed.

Section Ident.
  Context {TId C : Type} (reg : TId -> resolution TId) (mb lb : N) (ctxf : TId -> C) (strict : bool) (ND : variant_names_differ reg).
  Local Notation ENC := (enc reg mb lb ctxf PU256 strict).
  Local Notation ENCS := (encs reg mb lb ctxf PU256 strict).

  Lemma prim_same p q1 q2 b1 b2 : prim_enc lb PU256 p q1 b1 -> prim_enc lb PU256 p q2 b2 -> unsign_prim q1 = unsign_prim q2 -> q1 = q2.
  Proof.
    intros H1 H2. inversion H1; subst; inversion H2; subst; cbn [unsign_prim]; try congruence.
    destruct (0 <=? z)%Z eqn:Z1, (0 <=? z0)%Z eqn:Z2; try congruence. intro E. injection E as E. apply Z.leb_le in Z1, Z2. f_equal. lia.
  Qed.

  Theorem printed_alike :
    (forall c t v1 b1, ENC c t v1 b1 -> forall v2 b2, ENC c t v2 b2 -> unsigned_form v1 = unsigned_form v2 -> v1 = v2) /\
    (forall c ts vs1 b1, ENCS c ts vs1 b1 -> forall vs2 b2, ENCS c ts vs2 b2 -> map unsigned_form vs1 = map unsigned_form vs2 -> vs1 = vs2).
  Proof.
    apply enc_encs_ind.
    - intros t p x bs R HP v2 b2 H E. inversion H; subst; try congruence. cbn [unsigned_form] in E. injection E as E. do 2 f_equal.
      match goal with R0 : reg t = ResTy (TPrim ?p1) |- _ => lazymatch p1 with p => fail | _ => assert (p1 = p) as -> by congruence end end. eapply prim_same; eassumption.
    - intros t w n bs R Hn HC v2 b2 H E. inversion H; subst; try congruence. cbn [unsigned_form unsign_prim] in E. now injection E as ->.
    - intros c t t' v bs R _ IH v2 b2 H E. inversion H; subst; try congruence. match goal with H : ENC true ?t2 v2 b2 |- _ => assert (t2 = t') as -> by congruence end. eauto.
    - intros c t fs vs cmp bs R HC _ IH Sh v2 b2 H E. inversion H; subst; try congruence.
      + match goal with R0 : reg t = ResTy (TComposite ?f) |- _ => assert (f = fs) as -> by congruence end. rewrite !uf_composite in E. injection E as E.
        match goal with H' : fields_shape _ _ cmp0 |- _ => pose proof (shape_vals _ _ _ H') as V2 end. pose proof (shape_vals _ _ _ Sh) as V1.
        pose proof (comp_map_values _ _ _ E) as EV. rewrite V1, V2 in EV. assert (vs = vs0) as <- by eauto. do 2 f_equal. eapply shape_eq; [exact E|congruence].
    - intros c t ts vs bs R HC _ IH v2 b2 H E. inversion H; subst; try congruence.
      match goal with R0 : reg t = ResTy (TTuple ?f) |- _ => assert (f = ts) as -> by congruence end. rewrite !uf_composite in E. cbn [composite_map] in E. injection E as E. do 3 f_equal. eauto.
    - intros t l1 name idx fs l2 vs cmp bs R Hn Hi _ IH Sh v2 b2 H EU. inversion H; subst; try congruence. rewrite !uf_variant in EU. injection EU as EN EU. subst.
      match goal with H' : reg t = ResTy (TVariant _) |- _ => rename H' into R' end.
      assert (E : VInfo name0 idx0 fs0 = VInfo name0 idx fs).
      { pose proof (ND t _ R) as N1. rewrite R in R'. injection R' as E.
        assert (I0 : In (VInfo name0 idx0 fs0) (l1 ++ VInfo name0 idx fs :: l2)) by (rewrite E; apply in_or_app; right; left; reflexivity).
        assert (I1 : In (VInfo name0 idx fs) (l1 ++ VInfo name0 idx fs :: l2)) by (apply in_or_app; right; left; reflexivity).
        revert I0 I1 N1. generalize (l1 ++ VInfo name0 idx fs :: l2) as l. clear. induction l as [|v l IH]; [intros []|].
        cbn [map]. intros I0 I1 N1. inversion N1 as [|? ? Hni N2]; subst. destruct I0 as [->|I0], I1 as [I1|I1]; auto.
        - exfalso. apply Hni. apply (in_map vi_name) in I1. exact I1.
        - exfalso. apply Hni. subst v. apply (in_map vi_name) in I0. exact I0. }
      injection E as -> ->. match goal with H' : fields_shape _ _ cmp0 |- _ => pose proof (shape_vals _ _ _ H') as V2 end. pose proof (shape_vals _ _ _ Sh) as V1.
      pose proof (comp_map_values _ _ _ EU) as EV. rewrite V1, V2 in EV. assert (vs = vs0) as <- by eauto. do 2 f_equal. eapply shape_eq; [exact EU|congruence].
    - intros t t' vs pre bs R HL HC _ IH v2 b2 H E. inversion H; subst; try congruence.
      match goal with R0 : reg t = ResTy (TSequence ?f) |- _ => assert (f = t') as -> by congruence end. rewrite !uf_composite in E. cbn [composite_map] in E. injection E as E. do 3 f_equal.
      assert (LV : length vs = length vs0) by (apply (f_equal (@length _)) in E; rewrite !map_length in E; exact E). eapply IH; [rewrite LV; eassumption|exact E].
    - intros t t' n vs bs R HL _ IH v2 b2 H E. inversion H; subst; try congruence.
      match goal with R0 : reg t = ResTy (TArray ?f _) |- _ => assert (f = t') as -> by congruence end. rewrite !uf_composite in E. cbn [composite_map] in E. injection E as E. do 3 f_equal.
      assert (LV : length vs = length vs0) by (apply (f_equal (@length _)) in E; rewrite !map_length in E; exact E). eapply IH; [rewrite LV; eassumption|exact E].
    - intros t st o b pre bs R Hl Hm HC HP v2 b2 H E. inversion H; subst; try congruence. cbn [unsigned_form] in E. now injection E as ->.
    - intros c vs2 b2 H E. inversion H; subst. reflexivity.
    - intros c t ts v vs b bs _ H1 _ H2 vs2 b2 H E. inversion H; subst. cbn [map] in E. injection E as E1 E2. f_equal; eauto.
  Qed.
End Ident.

(** The text of a value is that of its unsigned form. *)
From Verif Require Import Chars Parse Spec_Grammar Fmt FmtFacts FmtText.
Section Text.
  Context (U : unicode) (ind lead : str).
  Lemma rd_items_map {A B} (f : A -> B) (h : B -> rd) (g : A -> rd) st l : (forall x, In x l -> h (f x) = g x) -> rd_items ind lead h st (map f l) = rd_items ind lead g st l.
  Proof.
    destruct l as [|a l]; intro H; [reflexivity|]. cbn [rd_items map]. rewrite (H a) by (left; reflexivity). f_equal. rewrite map_map. f_equal. apply map_ext_in. intros x I. rewrite (H x) by (right; exact I). reflexivity.
  Qed.
  Lemma rd_composite_map {A B} (f : value A -> value B) (h : value B -> rd) (g : value A -> rd) st c : (forall x, In x (values c) -> h (f x) = g x) ->
    rd_composite U ind lead st h (composite_map f c) = rd_composite U ind lead st g c.
  Proof.
    destruct c as [l|l]; cbn [composite_map values rd_composite]; intro H.
    - destruct l as [|kv l]; [reflexivity|].
      rewrite (rd_items_map (fun kv => (fst kv, f (snd kv))) _ (rd_field U (ins st) g)).
      + reflexivity.
      + intros x I. unfold rd_field. cbn [fst snd]. rewrite H; [reflexivity|]. apply in_map. exact I.
    - destruct l as [|x l]; [reflexivity|]. rewrite (rd_items_map f _ g) by exact H. reflexivity.
  Qed.
  Lemma rd_unsigned {T} (v : value T) : forall st, rd_value U ind lead st (unsigned_form v) = rd_value U ind lead st v.
  Proof.
    induction v as [d x IH] using value_ind'. intro st. destruct d as [c|n c|b|p].
    - rewrite uf_composite. cbn [rd_value rd_def]. apply rd_composite_map. rewrite Forall_forall in IH. cbn [children] in IH. intros. apply IH. assumption.
    - rewrite uf_variant. cbn [rd_value rd_def]. f_equal. apply rd_composite_map. rewrite Forall_forall in IH. cbn [children] in IH. intros. apply IH. assumption.
    - reflexivity.
    - cbn [unsigned_form rd_value rd_def]. destruct p as [| | | |z| |]; try reflexivity. cbn [unsign_prim]. destruct (0 <=? z)%Z eqn:Z; [|reflexivity].
      apply Z.leb_le in Z. cbn [rd_prim]. unfold int_chunks. destruct (Z.ltb_spec z 0); [lia|]. f_equal. f_equal. f_equal. lia.
  Qed.
  Lemma text_unsigned {T} st (v : value T) : to_text U ind lead st (unsigned_form v) = to_text U ind lead st v.
  Proof. rewrite !to_text_render, rd_unsigned. reflexivity. Qed.
End Text.
