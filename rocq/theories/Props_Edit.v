(** * Props_Edit: C102 replacing a part of a decoded value *)
From Verif Require Import Base Value ValueFacts Registry Spec_Scale Spec_Decode Spec_Encode Spec_Edit Scale ScaleFacts BitsFacts LenFacts Decode DecodeFacts DecodeMore.
From Verif Require Import Encode EncodeFacts EncodeMore EncodeComplete EncodeWrap EditFacts Demo Props_Decode Props_Encode.
Local Open Scope N_scope.

(** ** The bytes of a part *)
(** A part of a decoded value has its own stretch of the bytes, which decodes to it; putting other valid bytes of that type there gives the value with
    just that part replaced. *)
Theorem C102_splice : forall TId C (reg : TId -> resolution TId) X (ctxf : TId -> C) t t' u w v v' bs new rest, variant_names_differ reg -> is_bytes bs -> is_bytes new ->
  decodes reg X ctxf t bs v rest -> decodes reg X ctxf t' new w [] -> edit reg t t' u w v v' ->
  exists pre old post, bs = pre ++ old ++ post ++ rest /\ decodes reg X ctxf t' old u [] /\ decodes reg X ctxf t (pre ++ new ++ post ++ rest) v' rest.
Proof.
  intros TId C reg X ctxf t t' u w v v' bs new rest ND HB HN D DW ED.
  apply C21_decode_iff_encoding in D as (b & -> & E); [|exact HB]. apply C21_decode_iff_encoding in DW as (n & EN & EW); [|exact HN]. rewrite app_nil_r in EN. subst n.
  destruct (edit_enc reg _ _ ctxf PU256 false ND _ _ _ _ _ _ ED _ E) as (pre & old & post & -> & EU & K). specialize (K _ EW).
  exists pre, old, post. rewrite <- !app_assoc. split; [reflexivity|]. split.
  - apply (decode_complete reg X ctxf false) in EU as [f0 H]. exists f0. specialize (H f0 (le_n _) []). rewrite app_nil_r in H. exact H.
  - apply (decode_complete reg X ctxf false) in K as [f0 H]. exists f0. specialize (H f0 (le_n _) rest). rewrite <- !app_assoc in H. exact H.
Qed.
Print Assumptions C102_splice.

(** With type ids as contexts a part tells the type of its place, unless that is a [Compact] type. *)
Theorem C102_context : forall TId (reg : TId -> resolution TId) X t t' u w v v' bs rest, variant_names_differ reg -> is_bytes bs ->
  decodes reg X (fun t => t) t bs v rest -> edit reg t t' u w v v' -> (forall i, reg t' <> ResTy (TCompact i)) -> ctx_of u = t'.
Proof.
  intros TId reg X t t' u w v v' bs rest ND HB D ED NC. apply C21_decode_iff_encoding in D as (b & -> & E); [|exact HB].
  destruct (edit_enc reg _ _ _ PU256 false ND _ _ _ _ _ _ ED _ E) as (pre & old & post & -> & EU & _). clear - EU NC. inversion EU; subst; try reflexivity. exfalso. eapply NC; eassumption.
Qed.
Print Assumptions C102_context.

(** ** Encoding an edited value *)
(** Only the bytes of the part change; the result decodes to the edited value. *)
Theorem C102_edit : forall TId C (reg : TId -> resolution TId) X (ctxf : TId -> C) t t' u w v v' bs nbs r r', rt_ok reg X -> variant_names_differ reg -> is_bytes bs -> is_bytes nbs ->
  decodes reg X ctxf t bs v r -> decodes reg X ctxf t' nbs w r' -> (x_len64 X = true -> short v /\ short w) -> edit reg t t' u w v v' ->
  exists pre old new post, encodes reg X v t (pre ++ old ++ post) /\ encodes reg X u t' old /\ encodes reg X w t' new /\
    encodes reg X v' t (pre ++ new ++ post) /\ decodes reg X ctxf t (pre ++ new ++ post) v' [].
Proof.
  intros TId C reg X ctxf t t' u w v v' bs nbs r r' RT ND HB HN D DW SV ED.
  apply C21_decode_iff_encoding in D as (b & -> & E); [|exact HB]. apply C21_decode_iff_encoding in DW as (n & -> & EW); [|exact HN].
  apply enc_at_32 in E; [|intro L; apply SV, L]. apply enc_at_32 in EW; [|intro L; apply SV, L].
  apply (proj1 (strictify reg _ _ ctxf)) in E as (cb & E & _). apply (proj1 (strictify reg _ _ ctxf)) in EW as (new & EW & _).
  destruct (edit_enc reg _ _ ctxf PU256 true ND _ _ _ _ _ _ ED _ E) as (pre & old & post & -> & EU & K). specialize (K _ EW).
  exists pre, old, new, post. split; [apply (C24_reencode_exact _ _ _ _ ctxf _ _ _ RT E)|]. split; [apply (C24_reencode_exact _ _ _ _ ctxf _ _ _ RT EU)|].
  split; [apply (C24_reencode_exact _ _ _ _ ctxf _ _ _ RT EW)|]. destruct (C24_reencode_exact _ _ _ _ ctxf _ _ _ RT K). auto.
Qed.
Print Assumptions C102_edit.

(** One more element at the end of a sequence: the length in front changes, and the bytes of the element are put behind. *)
Theorem C102_push : forall TId C (reg : TId -> resolution TId) X (ctxf : TId -> C) t ti vs y w bs nbs r r', rt_ok reg X -> is_bytes bs -> is_bytes nbs ->
  reg t = ResTy (TSequence ti) -> decodes reg X ctxf t bs (Val (DComposite (Unnamed vs)) y) r -> decodes reg X ctxf ti nbs w r' ->
  (x_len64 X = true -> short (Val (DComposite (Unnamed vs)) y) /\ short w) -> N.of_nat (length vs) + 1 < 2 ^ 32 ->
  exists p p' items new, compact_enc (N.of_nat (length vs)) p /\ compact_enc (N.of_nat (length vs) + 1) p' /\
    encodes reg X (Val (DComposite (Unnamed vs)) y) t (p ++ items) /\ encodes reg X w ti new /\
    encodes reg X (Val (DComposite (Unnamed (vs ++ [w]))) y) t (p' ++ items ++ new) /\
    decodes reg X ctxf t (p' ++ items ++ new) (Val (DComposite (Unnamed (vs ++ [w]))) y) [].
Proof.
  intros TId C reg X ctxf t ti vs y w bs nbs r r' RT HB HN R D DW SV LB.
  apply C21_decode_iff_encoding in D as (b & -> & E); [|exact HB]. apply C21_decode_iff_encoding in DW as (n & -> & EW); [|exact HN].
  apply enc_at_32 in E; [|intro L; apply SV, L]. apply enc_at_32 in EW; [|intro L; apply SV, L].
  apply (proj1 (strictify reg _ _ ctxf)) in E as (cb & E & _). apply (proj1 (strictify reg _ _ ctxf)) in EW as (new & EW & _).
  pose proof (C24_reencode_exact _ _ _ _ ctxf _ _ _ RT E) as [_ E1]. pose proof (C24_reencode_exact _ _ _ _ ctxf _ _ _ RT EW) as [_ E2].
  assert (INV : exists pre items, cb = pre ++ items /\ y = ctxf t /\ compact_enc (N.of_nat (length vs)) pre /\ encs reg (x_maxbits X) 32 ctxf PU256 true false (repeat ti (length vs)) vs items).
  { inversion E; subst; try congruence. match goal with H : reg t = ResTy (TSequence ?e) |- _ => assert (e = ti) as -> by congruence end. eauto 10. }
  destruct INV as (pre & items & -> & -> & HP & HI).
  assert (HC : compact_enc (N.of_nat (length vs) + 1) (compact_encode (N.of_nat (length vs) + 1))) by (apply EncodeSound.compact_small32; exact LB).
  exists pre, (compact_encode (N.of_nat (length vs) + 1)), items, new.
  assert (EP : enc reg (x_maxbits X) 32 ctxf PU256 true false t (Val (DComposite (Unnamed (vs ++ [w]))) (ctxf t)) (compact_encode (N.of_nat (length vs) + 1) ++ items ++ new)).
  { assert (L : length (vs ++ [w]) = S (length vs)) by (rewrite app_length; cbn; lia).
    eapply E_sequence; [exact R|rewrite L; lia|rewrite L; replace (N.of_nat (S (length vs))) with (N.of_nat (length vs) + 1) by lia; exact HC|].
    rewrite L. change (S (length vs)) with (1 + length vs)%nat. rewrite Nat.add_comm, repeat_app. apply encs_app; [exact HI|]. cbn [repeat]. rewrite <- (app_nil_r new). constructor; [exact EW|constructor]. }
  pose proof (C24_reencode_exact _ _ _ _ ctxf _ _ _ RT EP) as [D3 E3]. auto 10.
Qed.
Print Assumptions C102_push.

(** *** In the demo registry: in [struct 4 { a: u8, b: Vec<u8> }], the second element of [b]; then one more element. *)
Definition edit_before : value nat := Val (DComposite (Named [(s2l "a", Val (DPrim (PU128 7)) 0%nat);
  (s2l "b", Val (DComposite (Unnamed [Val (DPrim (PU128 1)) 0%nat; Val (DPrim (PU128 2)) 0%nat])) 5%nat)])) 4%nat.
Definition edit_after : value nat := Val (DComposite (Named [(s2l "a", Val (DPrim (PU128 7)) 0%nat);
  (s2l "b", Val (DComposite (Unnamed [Val (DPrim (PU128 1)) 0%nat; Val (DPrim (PU128 9)) 0%nat])) 5%nat)])) 4%nat.
Example C102_demo_edit : edit demo_rt 4%nat 0%nat (Val (DPrim (PU128 2)) 0%nat) (Val (DPrim (PU128 9)) 0%nat) edit_before edit_after.
Proof.
  eapply (Edit_struct demo_rt 4%nat _ 1%nat); [reflexivity|reflexivity| |].
  - left. eexists [_], _, []. split; [reflexivity|]. split; reflexivity.
  - eapply (Edit_sequence demo_rt 5%nat _ 1%nat); [reflexivity| |apply Edit_here].
    right. eexists [_], []. split; [reflexivity|]. split; reflexivity.
Qed.
Example C102_demo_hypotheses : rt_ok demo_rt xdemo /\ variant_names_differ demo_rt /\
  decodes demo_rt xdemo (fun t => t) 4%nat [7; 8; 1; 2] edit_before [] /\ decodes demo_rt xdemo (fun t => t) 0%nat [9] (Val (DPrim (PU128 9)) 0%nat) [] /\ short edit_before.
Proof.
  split; [exact C24_demo_rt_ok|]. split; [|split; [exists 5%nat; reflexivity|]; split; [exists 2%nat; reflexivity|repeat constructor]].
  intros t vs H. do 31 (destruct t as [|t]; [try discriminate H; try (injection H as <-; cbn; repeat constructor; cbn; intuition discriminate)|]). discriminate.
Qed.
Example C102_demo_bytes : encode demo_rt xdemo 9%nat edit_after 4%nat [] = (SOk, [7; 8; 1; 9]).
Proof. vm_compute. reflexivity. Qed.

(** Below a [Compact] the type id a part carries is not how it is encoded: [Compact<u32>] holds a u32 whose context is the id of u32, but its bytes are not
    those of a u32. *)
Theorem C102_compact_refuted : exists (reg : nat -> resolution nat) X t bs v, decodes reg X (fun t => t) t bs v [] /\
  ~ exists pre old post, bs = pre ++ old ++ post /\ encodes reg X v (ctx_of v) old.
Proof.
  exists (fun t => match t with 0%nat => ResTy (TPrim (PtU W32)) | 1%nat => ResTy (TCompact 0%nat) | _ => ResNotFound end), xdemo, 1%nat, [4], (Val (DPrim (PU128 1)) 0%nat).
  split; [exists 3%nat; reflexivity|]. intros (pre & old & post & E & [F H]). cbn [ctx_of] in H.
  apply (f_equal (@length _)) in E. rewrite !app_length in E. cbn [length] in E. specialize (H []).
  match type of H with encode ?g ?x ?f ?v ?t ?o = _ => pose proof (C27_fuel_irrelevant nat nat g x f 5%nat v t o) as FI end.
  rewrite H in FI. specialize (FI ltac:(discriminate) ltac:(vm_compute; discriminate)). vm_compute in FI. injection FI as ->. cbn in E. lia.
Qed.
Print Assumptions C102_compact_refuted.
