(** * LenFacts: the width of length prefixes (the dependency's u32 or u64). *)
From Verif Require Import Base Value Registry Spec_Scale Scale Spec_Encode.
Open Scope N_scope.

Section Len.
  Context {TId C : Type} (reg : TId -> resolution TId) (mb : N) (ctxf : TId -> C) (tag : bytes -> prim) (strict : bool).

  Lemma enc_mono lb lb' : lb <= lb' ->
    (forall c t v bs, enc reg mb lb ctxf tag strict c t v bs -> enc reg mb lb' ctxf tag strict c t v bs) /\
    (forall c ts vs bs, encs reg mb lb ctxf tag strict c ts vs bs -> encs reg mb lb' ctxf tag strict c ts vs bs).
  Proof.
    intro L. assert (P : forall n, n < 2 ^ lb -> n < 2 ^ lb').
    { intros n H. eapply N.lt_le_trans; [exact H|]. apply N.pow_le_mono_r; [discriminate|exact L]. }
    apply enc_encs_ind; intros; try (econstructor; eauto; fail).
    match goal with H : prim_enc _ _ _ _ _ |- _ => destruct H end; eapply E_prim; eauto; econstructor; eauto.
  Qed.

  Lemma enc_short lb :
    (forall c t v bs, enc reg mb lb ctxf tag strict c t v bs -> short v -> enc reg mb 32 ctxf tag strict c t v bs) /\
    (forall c ts vs bs, encs reg mb lb ctxf tag strict c ts vs bs -> Forall short vs -> encs reg mb 32 ctxf tag strict c ts vs bs).
  Proof.
    assert (SH : forall names (vs : list (value C)) cmp, fields_shape names vs cmp -> Forall short (values cmp) -> Forall short vs).
    { intros names vs cmp S H. destruct S; exact H. }
    apply enc_encs_ind.
    - intros t p x bs R HP S. inversion S as [? ? SN _]; subst. eapply E_prim; [exact R|]. destruct HP; econstructor; eauto.
    - intros. eapply E_compact_uint; eauto.
    - intros. eapply E_compact; eauto.
    - intros c t fs vs cmp bs R HC _ IH Sh S. inversion S as [? ? SN CH]; subst. eapply E_composite; eauto.
    - intros c t ts vs bs R HC _ IH S. inversion S as [? ? SN CH]; subst. eapply E_tuple; eauto.
    - intros t l1 name idx fs l2 vs cmp bs R NI HI _ IH Sh S. inversion S as [? ? SN CH]; subst. eapply E_variant; eauto.
    - intros t t' vs pre bs R HL HC _ IH S. inversion S as [? ? SN CH]; subst. eapply E_sequence; eauto.
    - intros t t' n vs bs R HL _ IH S. inversion S as [? ? SN CH]; subst. eapply E_array; eauto.
    - intros. eapply E_bits; eauto.
    - constructor.
    - intros c t ts v vs b bs _ IH1 _ IH2 S. inversion S; subst. constructor; auto.
  Qed.
End Len.

Lemma x_len_ge X : 32 <= x_len X.
Proof. unfold x_len. destruct (x_len64 X); lia. Qed.

Section Decoded.
  Context {TId C : Type} (reg : TId -> resolution TId) (X : ext) (ctxf : TId -> C) (tag : bytes -> prim) (strict : bool).
  Lemma enc_at_x c t v bs : enc reg (x_maxbits X) 32 ctxf tag strict c t v bs -> enc reg (x_maxbits X) (x_len X) ctxf tag strict c t v bs.
  Proof. apply enc_mono, x_len_ge. Qed.
  Lemma encs_at_x c ts vs bs : encs reg (x_maxbits X) 32 ctxf tag strict c ts vs bs -> encs reg (x_maxbits X) (x_len X) ctxf tag strict c ts vs bs.
  Proof. apply enc_mono, x_len_ge. Qed.
  Lemma enc_at_32 c t v bs : (x_len64 X = true -> short v) -> enc reg (x_maxbits X) (x_len X) ctxf tag strict c t v bs -> enc reg (x_maxbits X) 32 ctxf tag strict c t v bs.
  Proof. unfold x_len. destruct (x_len64 X); intros S H; [|exact H]. eapply (proj1 (enc_short _ _ _ _ _ _)); eauto. Qed.
  Lemma encs_at_32 c ts vs bs : (x_len64 X = true -> Forall short vs) -> encs reg (x_maxbits X) (x_len X) ctxf tag strict c ts vs bs -> encs reg (x_maxbits X) 32 ctxf tag strict c ts vs bs.
  Proof. unfold x_len. destruct (x_len64 X); intros S H; [|exact H]. eapply (proj2 (enc_short _ _ _ _ _ _)); eauto. Qed.
End Decoded.
