(** * Props_EditAny: C106 replacing a part of a decoded value by any value that can be encoded there *)
From Verif Require Import Base Value ValueFacts Registry Spec_Scale Spec_Decode Spec_Encode Spec_Edit Scale ScaleFacts BitsFacts LenFacts Decode DecodeFacts DecodeMore.
From Verif Require Import Encode EncodeFacts EncodeTerm EncodeSound EncodeMore EncodeComplete EncodeWrap Spec_Same Spec_Writes WritesFacts EditFacts MigrateFacts Spec_Splice EditAnyFacts.
From Verif Require Import Demo Props_Decode Props_Encode Props_Writes Props_Cost Props_Edit.
Local Open Scope N_scope.

Lemma writes_fits {TId T} (reg : TId -> resolution TId) X (v : value T) : forall t b, writes reg X v t b -> fits reg X v t.
Proof.
  induction v as [d x IH] using value_ind'. intros t b H.
  inversion H as [? ? ? ? L|n c ? ? ? V|c ? ? ? D|c ? ? u ? E N D|c ? ? u v ? E N1 N2 EV HW]; subst.
  - eapply Fits_leaf, L.
  - eapply Fits_variant. eapply variant_impl; [exact IH|exact V].
  - eapply Fits_directly. eapply directly_impl; [exact IH|exact D].
  - eapply Fits_inside; [exact E|]. eapply directly_impl; [exact IH|exact D].
  - eapply Fits_one; [exact E|exact EV|]. cbn [children] in IH. rewrite EV in IH. inversion IH; subst. eauto.
Qed.

Local Notation wf := (all_nodes (fun d => match d with DPrim p => prim_wf p = true | _ => True end)).
Lemma edit_wf {TId C} (reg : TId -> resolution TId) t t' (u w v v' : value C) : edit reg t t' u w v v' -> wf w -> wf v -> wf v'.
Proof.
  assert (R : forall (c c' : composite (value C)) i x x', replaced c c' i x x' -> (wf x -> wf x') -> Forall wf (values c) -> Forall wf (values c')).
  { intros c c' i x x' H K F. apply replaced_values in H as (l1 & l2 & _ & V1 & V2 & _). rewrite V1 in F. rewrite V2. apply Forall_app in F as [F1 F2]. inversion F2; subst.
    apply Forall_app. split; [exact F1|]. constructor; auto. }
  intros ED HW HV. induction ED; [exact HW|inversion HV; subst; constructor; [exact I|]; cbn [children] in *; eauto..].
Qed.
Lemma edit_any {TId C} (reg : TId -> resolution TId) X (ctxf : TId -> C) t t' u w0 v v0 cb :
  rt_ok reg X -> variant_names_differ reg -> finite_wrappers reg -> no_nested_lists reg -> enc reg (x_maxbits X) 32 ctxf PU256 true false t v cb ->
  edit reg t t' u w0 v v0 ->
  exists p pre old post, swap p u w0 v v0 /\ cb = pre ++ old ++ post /\ enc reg (x_maxbits X) 32 ctxf PU256 true false t' u old /\
    forall w v', swap p u w v v' -> edit reg t t' u w v v' /\
      (forall new, wf w -> encodes reg X w t' new -> encodes reg X v' t (pre ++ new ++ post)) /\
      (forall new, enc reg (x_maxbits X) 32 ctxf PU256 true false t' w new -> enc reg (x_maxbits X) 32 ctxf PU256 true false t v' (pre ++ new ++ post)).
Proof.
  intros RT ND WF NL E ED.
  assert (WFV : forall t v b, enc reg (x_maxbits X) 32 ctxf PU256 true false t v b -> wf v) by (intros ? ? ? HE; eapply (proj1 (enc_wf reg (fun _ _ : TId => False) (x_maxbits X) 32 ctxf true)), HE).
  assert (NAT : forall t v b, enc reg (x_maxbits X) 32 ctxf PU256 true false t v b -> writes reg X v t b).
  { intros t1 v1 b1 E1. apply (writes_iff reg X WF v1); [eapply WFV, E1|]. apply (C24_reencode_exact _ _ _ _ ctxf _ _ _ RT E1). }
  destruct (edit_writes reg X (writes_fits reg X) (x_maxbits X) ctxf NAT ND WF NL (rt_fields _ _ RT) (fun t vs R => proj2 (rt_variants _ _ RT t vs R)) _ _ _ _ _ _ ED)
    as (p & SW & K). destruct (K _ E) as (pre & old & post & EB & EU & KW).
  exists p, pre, old, post. split; [exact SW|]. split; [exact EB|]. split; [exact EU|]. intros w v' S. destruct (KW _ _ S) as (ED' & K1 & K2). split; [exact ED'|]. split; [|exact K2].
  intros new HW EW. apply (writes_iff reg X WF w HW) in EW. apply (writes_iff reg X WF v'); [|apply K1, EW]. eapply edit_wf; [exact ED'|exact HW|eapply WFV, E].
Qed.

(** ** Encoding *)
(** [w] need not be of the form decoding gives: anything that can be encoded at the type of the part. Its bytes then stand where those of the part stood, and all
    others stay.  Conditions: the registry is as for C24, no type wraps itself, and no list stands in two newtypes around each other. *)
Theorem C106_encode : forall TId C (reg : TId -> resolution TId) X (ctxf : TId -> C) t t' u w v v' bs r new,
  rt_ok reg X -> variant_names_differ reg -> finite_wrappers reg -> no_nested_lists reg ->
  is_bytes bs -> decodes reg X ctxf t bs v r -> (x_len64 X = true -> short v) ->
  all_nodes (fun d => match d with DPrim p => prim_wf p = true | _ => True end) w -> encodes reg X w t' new -> edit reg t t' u w v v' ->
  exists pre old post, encodes reg X v t (pre ++ old ++ post) /\ encodes reg X u t' old /\ encodes reg X v' t (pre ++ new ++ post).
Proof.
  intros TId C reg X ctxf t t' u w v v' bs r new RT ND WF NL HB D SV HW EW ED.
  apply C21_decode_iff_encoding in D as (b & -> & E); [|exact HB]. apply enc_at_32 in E; [|exact SV]. apply (proj1 (strictify reg _ _ ctxf)) in E as (cb & E & _).
  destruct (edit_any reg X ctxf t t' u w v v' cb RT ND WF NL E ED) as (p & pre & old & post & S & -> & EU & K). destruct (K _ _ S) as (_ & EV & _). exists pre, old, post.
  split; [apply (C24_reencode_exact _ _ _ _ ctxf _ _ _ RT E)|]. split; [apply (C24_reencode_exact _ _ _ _ ctxf _ _ _ RT EU)|exact (EV _ HW EW)].
Qed.
Print Assumptions C106_encode.

(** ** Reading the result *)
(** What is read back is the old value with one part replaced: by what the bytes of [w] read back as. *)
Theorem C106_reads_back : forall TId C (reg : TId -> resolution TId) X (ctxf : TId -> C) t t' u w v v' bs r new,
  rt_ok reg X -> reg_ok reg -> variant_names_differ reg -> finite_wrappers reg -> no_nested_lists reg ->
  is_bytes bs -> decodes reg X ctxf t bs v r -> (x_len64 X = true -> short v) ->
  small (x_maxbits X) w -> encodes reg X w t' new -> edit reg t t' u w v v' ->
  exists all w2 v2, encodes reg X v' t all /\ decodes reg X ctxf t' new w2 [] /\ edit reg t t' u w2 v v2 /\ decodes reg X ctxf t all v2 [].
Proof.
  intros TId C reg X ctxf t t' u w v v' bs r new RT OK ND WF NL HB D SV SW EW ED.
  assert (HW : wf w).
  { clear - SW. unfold small in SW. induction w as [d x IH] using value_ind'. inversion SW as [? ? Hd Hc]; subst. constructor.
    - destruct d; try exact I. apply Hd.
    - rewrite Forall_forall in *. eauto. }
  apply C21_decode_iff_encoding in D as (b & -> & E); [|exact HB]. apply enc_at_32 in E; [|exact SV]. apply (proj1 (strictify reg _ _ ctxf)) in E as (cb & E & _).
  destruct (edit_any reg X ctxf t t' u w v v' cb RT ND WF NL E ED) as (p & pre & old & post & S & -> & EU & K). destruct (K _ _ S) as (_ & EV & _). specialize (EV _ HW EW).
  destruct EW as [F EW]. specialize (EW []). apply (encode_snd reg X F ctxf OK w SW) in EW as (new' & w2 & EN & E2). cbn [app] in EN. subst new'.
  destruct (swap_any _ _ _ _ _ S w2) as [v2 S2]. destruct (K _ _ S2) as (ED2 & _ & EV2). specialize (EV2 _ E2). exists (pre ++ new ++ post), w2, v2. split; [exact EV|].
  split; [apply (C24_reencode_exact _ _ _ _ ctxf _ _ _ RT E2)|]. split; [exact ED2|apply (C24_reencode_exact _ _ _ _ ctxf _ _ _ RT EV2)].
Qed.
Print Assumptions C106_reads_back.

(** Non-vacuity: in the demo registry, in [struct 4 { a: u8, b: Vec<u8> }], the whole of [b] is replaced by a named composite of which only the values count, one of
    them in brackets and one negative zero; and the conditions hold. *)
Definition any_part : value nat := Val (DComposite (Named [(s2l "x", Val (DComposite (Unnamed [Val (DPrim (PI128 3)) 99%nat])) 98%nat); (s2l "y", Val (DPrim (PI128 0)) 97%nat); (s2l "z", Val (DPrim (PChar 65)) 96%nat)])) 95%nat.
Definition any_list : value nat := Val (DComposite (Unnamed [Val (DPrim (PU128 1)) 0%nat; Val (DPrim (PU128 2)) 0%nat])) 5%nat.
Definition any_after : value nat := Val (DComposite (Named [(s2l "a", Val (DPrim (PU128 7)) 0%nat); (s2l "b", any_part)])) 4%nat.
Example C106_demo_edit : edit demo_rt 4%nat 5%nat any_list any_part edit_before any_after.
Proof.
  eapply (Edit_struct demo_rt 4%nat _ 1%nat); [reflexivity|reflexivity| |apply Edit_here].
  left. eexists [_], _, []. split; [reflexivity|]. split; reflexivity.
Qed.
Example C106_demo : finite_wrappers demo_rt /\ no_nested_lists demo_rt /\ reg_ok demo_rt /\ small (x_maxbits xdemo) any_part /\
  encodes demo_rt xdemo any_part 5%nat [12; 3; 0; 65] /\ encode demo_rt xdemo 9%nat any_after 4%nat [] = (SOk, [7; 12; 3; 0; 65]).
Proof.
  split; [exact C31_demo_wf|]. split; [exact C63_demo_no_nested|]. split; [exact C25_demo_ok|]. split; [|split; [|vm_compute; reflexivity]].
  - unfold small, any_part. repeat (constructor; cbn; try reflexivity; try (intros; match goal with H : Forall2 is_bit _ _ |- _ => apply f2_same_len in H; cbn in H; rewrite <- H; vm_compute; discriminate end)).
  - exists 9%nat. intro out. vm_compute. reflexivity.
Qed.

(** ** Why lists in nested newtypes are excluded *)
(** struct W2(W1); struct W1(Vec<Vec<u8>>): the W1 in a W2 is replaced by a W1 that encodes as [[5], [6]]; the whole then encodes as W2(W1([[5, 6]])). *)
Definition nested_lists : nat -> resolution nat := fun t => match t with 0%nat => ResTy (TPrim (PtU W8)) | 1%nat => ResTy (TSequence 0%nat) | 2%nat => ResTy (TSequence 1%nat)
  | 3%nat => ResTy (TComposite [(None, 2%nat)]) | 4%nat => ResTy (TComposite [(None, 3%nat)]) | _ => ResNotFound end.
Theorem C106_nested_lists_refuted : exists (reg : nat -> resolution nat) X (v v' u w : value unit) t t' bs new all,
  finite_wrappers reg /\ variant_names_differ reg /\ decodes reg X (fun _ => tt) t bs v [] /\ encodes reg X v t bs /\ edit reg t t' u w v v' /\
  decodes reg X (fun _ => tt) t' new w [] /\ encodes reg X w t' new /\ encodes reg X v' t all /\ ~ exists pre post, all = pre ++ new ++ post.
Proof.
  exists nested_lists, xdemo, (unnamed_composite [unnamed_composite [unnamed_composite [unnamed_composite [vu128 5]]]]),
    (unnamed_composite [unnamed_composite [unnamed_composite [unnamed_composite [vu128 5]; unnamed_composite [vu128 6]]]]),
    (unnamed_composite [unnamed_composite [unnamed_composite [vu128 5]]]), (unnamed_composite [unnamed_composite [unnamed_composite [vu128 5]; unnamed_composite [vu128 6]]]), 4%nat, 3%nat,
    [4; 4; 5], [8; 4; 5; 4; 6], [4; 8; 5; 6].
  assert (NW : forall t w, wraps nested_lists t w -> t = 3%nat /\ w = 2%nat \/ t = 4%nat /\ w = 3%nat).
  { intros t w H. inversion H as [? ? A|? ? A]; subst; [inversion A as [? ? ? B|? ? B]; subst; clear A; rename B into A|]; do 5 (destruct t as [|t]; [try discriminate A; injection A as _ <-; auto|]); discriminate. }
  split.
  { intro t. do 6 (constructor; intros ? Q; apply NW in Q as [[? ->]|[? ->]]); discriminate. }
  split; [intros t vs R; do 5 (destruct t as [|t]; [discriminate|]); discriminate|].
  split; [exists 8%nat; reflexivity|]. split; [exists 8%nat; intro; vm_compute; reflexivity|]. split.
  { eapply (Edit_struct nested_lists 4%nat _ 0%nat); [reflexivity|reflexivity| |apply Edit_here]. right. exists [], []. split; [reflexivity|]. split; reflexivity. }
  split; [exists 8%nat; reflexivity|]. split; [exists 8%nat; intro; reflexivity|]. split; [exists 8%nat; intro; reflexivity|].
  intros (pre & post & E). apply (f_equal (@length _)) in E. rewrite !app_length in E. cbn [length] in E. lia.
Qed.
Print Assumptions C106_nested_lists_refuted.
