(** * EncodeText: what becomes of a value when it is written as text and read back does not matter for its encoding (C66). *)
From Verif Require Import Base Value ValueFacts Chars Parse Fmt Spec_Fmt Registry Spec_Scale Scale ScaleFacts BitsFacts Encode EncodeFacts.
Open Scope N_scope.

Section Text.
  Context {TId : Type} (reg : TId -> resolution TId) (X : ext) (F : nat).

  Lemma unsign_prim_encode p t out : encode_primitive reg X F (unsign_prim p) t out = encode_primitive reg X F p t out.
  Proof.
    destruct p; try reflexivity. cbn [unsign_prim]. destruct (Z.leb_spec 0 z) as [H|H]; [|reflexivity]. cbn [encode_primitive].
    rewrite Z2N.id by exact H. reflexivity.
  Qed.
  Lemma unsign_bit {T} (v : value T) : bit_of (unsigned_form v) = bit_of v.
  Proof.
    destruct v as [[[l|l]|n [l|l]|b|p] ctx]; try reflexivity. destruct p; try reflexivity. cbn [unsigned_form unsign_prim].
    destruct (Z.leb_spec 0 z) as [H|H]; [|reflexivity]. unfold bit_of. cbn [as_bool as_u128 as_i128 vdef_of].
    destruct (Z.eqb_spec z 0) as [->|N0]; [reflexivity|]. destruct (Z.eqb_spec z 1) as [->|N1]; [reflexivity|].
    destruct (N.eqb_spec (Z.to_N z) 0); [lia|]. destruct (N.eqb_spec (Z.to_N z) 1); [lia|]. reflexivity.
  Qed.
  Lemma encode_unsigned_rel {T} (v : value T) : erel (TId := TId) false (encode reg X F v) (encode reg X F (unsigned_form v)).
  Proof.
    induction v as [d ctx IH] using value_ind'. intros t out.
    assert (HC : forall c, values c = children d ->
       crel (irel false) (composite_map (fun x => (x, encode reg X F x)) c)
                 (composite_map (fun x => (x, encode reg X F x)) (composite_map unsigned_form c))).
    { intros c E. rewrite <- E in IH. destruct c as [l|l]; cbn [composite_map values] in *; constructor; rewrite map_map.
      - rewrite Forall_map in IH. clear E. induction IH as [|[k x] l Hx _ IHl]; cbn [map]; constructor; [|exact IHl].
        split; [reflexivity|]. split; cbn [fst snd]; [symmetry; apply unsign_bit|apply Hx].
      - clear E. induction IH as [|x l Hx _ IHl]; cbn [map]; constructor; [|exact IHl].
        split; cbn [fst snd]; [symmetry; apply unsign_bit|apply Hx]. }
    destruct d as [c|n c|b|p].
    - assert (E : unsigned_form (Val (DComposite c) ctx) = Val (DComposite (composite_map unsigned_form c)) tt) by (destruct c; reflexivity).
      rewrite E. cbn [encode]. apply encode_composite_rel; [left; reflexivity|]. apply HC. reflexivity.
    - assert (E : unsigned_form (Val (DVariant n c) ctx) = Val (DVariant n (composite_map unsigned_form c)) tt) by (destruct c; reflexivity).
      rewrite E. cbn [encode]. apply encode_variant_rel; [left; reflexivity|]. apply HC. reflexivity.
    - cbn [unsigned_form encode]. apply rel_refl.
    - cbn [unsigned_form encode]. rewrite unsign_prim_encode. apply rel_refl.
  Qed.
  Lemma encode_unsigned {T} (v : value T) t out : encode reg X F (unsigned_form v) t out = encode reg X F v t out.
  Proof. destruct (encode_unsigned_rel v t out) as [E|[E _]]; [symmetry; exact E|discriminate]. Qed.
End Text.

(** ** Decoded values have a text *)
Section Speak.
  Context {TId C : Type} (reg : TId -> resolution TId) (maxbits lenbits : N) (ctxf : TId -> C) (i256_as : bytes -> prim) (strict : bool) (bare : str -> bool).
  Context (H256 : forall t, reg t <> ResTy (TPrim PtU256) /\ reg t <> ResTy (TPrim PtI256)).
  Context (HNames : forall t vs v, reg t = ResTy (TVariant vs) -> In v vs -> bare (vi_name v) && bool_like (vi_name v) = false).
  Lemma prim_enc_wf p x bs (c : C) : p <> PtU256 -> p <> PtI256 -> prim_enc lenbits i256_as p x bs -> text_ok bare (Val (DPrim x) c) = true.
  Proof.
    intros N1 N2 H. destruct H as [| |k bs S _|s pre S _ _|w n bs (HB & HL & HV)|w z bs HZ _|bs _ _|bs _ _]; try contradiction; cbn [text_ok prim_wf]; auto.
    - apply le_val_bound in HB. rewrite HL, HV in HB. apply N.ltb_lt. eapply N.lt_le_trans; [exact HB|]. destruct w; vm_compute; discriminate.
    - apply andb_true_intro. rewrite Z.leb_le, Z.ltb_lt. destruct w; cbn [wbits wbytes] in HZ; vm_compute (Z.of_N _) in HZ; cbn in HZ; lia.
  Qed.
  Lemma shape_text_ok names (vs : list (value C)) cmp : fields_shape names vs cmp -> forallb (text_ok bare) vs = true -> forall c,
    text_ok bare (Val (DComposite cmp) c) = true.
  Proof.
    intros [kvs _|ns l _ _] H c; cbn [text_ok]; [|exact H]. rewrite forallb_forall in *. intros kv HI. apply H. now apply in_map.
  Qed.
  Lemma enc_text_ok :
    (forall c t v bs, enc reg maxbits lenbits ctxf i256_as strict c t v bs -> text_ok bare v = true) /\
    (forall c ts vs bs, encs reg maxbits lenbits ctxf i256_as strict c ts vs bs -> forallb (text_ok bare) vs = true).
  Proof.
    apply enc_encs_ind; intros; auto.
    - eapply prim_enc_wf; [| |eassumption]; intros ->; [eapply (proj1 (H256 _))|eapply (proj2 (H256 _))]; eassumption.
    - cbn [text_ok prim_wf]. apply N.ltb_lt. eapply N.lt_le_trans; [eassumption|]. destruct w; vm_compute; discriminate.
    - eapply shape_text_ok; eassumption.
    - pose proof (shape_text_ok _ _ _ H4 H3 (ctxf t)) as HT. pose proof (HNames _ _ (VInfo name idx fs) H ltac:(apply in_or_app; right; left; reflexivity)) as HN.
      cbn [vi_name] in HN. destruct cmp; cbn [text_ok] in *; rewrite HN; exact HT.
    - cbn [forallb]. rewrite H0. assumption.
  Qed.
End Speak.
