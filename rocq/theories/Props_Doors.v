(** * Props_Doors: C66: a value may pass through text on its way to the bytes. *)
From Verif Require Import Base Value Spec_Value ValueFacts Chars Parse Spec_Grammar Fmt Spec_Fmt FmtFacts FmtText Registry Spec_Scale Scale ScaleFacts BitsFacts Decode DecodeFacts Encode EncodeFacts
  Spec_Encode LenFacts EncodeSound EncodeComplete EncodeTerm EncodeMore EncodeText Demo Props_Fmt Props_Decode Props_Encode.
Open Scope N_scope.

(** ** C66: what is written as text and read back encodes alike *)
(** Every printable value, any layout: the text is read back whole, and the value read has, for every registry, type and output
    buffer, exactly the outcome (bytes written, success or failure) of the value that was printed. *)
Theorem C66_text_encodes_alike : forall (T : Type) U ind lead st (v : value T), unicode_ok U -> ws ind -> ws lead ->
  text_ok (is_ident U) v = true ->
  exists text v', to_text U ind lead st v = Some text /\ from_str U text = (Ok v', []) /\
    forall TId (reg : TId -> resolution TId) X F t out, encode reg X F v' t out = encode reg X F v t out.
Proof.
  intros T U ind lead st v HU Hi Hl Hok. destruct (C04_text_roundtrip T U ind lead st v [] HU Hi Hl Hok I) as (text & P & R).
  rewrite app_nil_r in R. exists text, (unsigned_form v). split; [exact P|]. split; [exact R|]. intros. apply encode_unsigned.
Qed.
Print Assumptions C66_text_encodes_alike.

(** Registries whose values can be written as text: no 256-bit integers, and no variant named like the start of a boolean
    ([true..], [false..]) unless that name needs quotes. *)
Definition speakable {TId} (bare : str -> bool) (reg : TId -> resolution TId) : Prop :=
  (forall t, reg t <> ResTy (TPrim PtU256) /\ reg t <> ResTy (TPrim PtI256)) /\
  (forall t vs v, reg t = ResTy (TVariant vs) -> In v vs -> bare (vi_name v) && bool_like (vi_name v) = false).

(** In such a registry everything that decodes has a text. *)
Theorem C66_decoded_is_printable : forall TId C (reg : TId -> resolution TId) X (ctxf : TId -> C) U ind lead st t bs v r, unicode_ok U -> ws ind -> ws lead ->
  speakable (is_ident U) reg -> is_bytes bs -> decodes reg X ctxf t bs v r ->
  exists text, to_text U ind lead st v = Some text /\ from_str U text = (Ok (unsigned_form v), []).
Proof.
  intros TId C reg X ctxf U ind lead st t bs v r HU Hi Hl [H256 HN] HB D. apply C21_decode_iff_encoding in D as (pre & -> & E); [|exact HB].
  apply (proj1 (enc_text_ok reg (x_maxbits X) (x_len X) ctxf PU256 false (is_ident U) H256 HN)) in E.
  destruct (C04_text_roundtrip C U ind lead st v [] HU Hi Hl E I) as (text & P & R). rewrite app_nil_r in R. eauto.
Qed.
Print Assumptions C66_decoded_is_printable.

(** Bytes to value to text to value to bytes: the bytes. *)
Theorem C66_scale_text_scale : forall TId C (reg : TId -> resolution TId) X (ctxf : TId -> C) U ind lead st t bs v r, unicode_ok U -> ws ind -> ws lead ->
  rt_ok reg X -> (forall t st o, reg t <> ResTy (TBitSeq st o)) -> speakable (is_ident U) reg ->
  is_bytes bs -> decodes reg X ctxf t bs v r -> (x_len64 X = true -> short v) ->
  exists text v' pre, to_text U ind lead st v = Some text /\ from_str U text = (Ok v', []) /\ bs = pre ++ r /\ encodes reg X v' t pre.
Proof.
  intros TId C reg X ctxf U ind lead st t bs v r HU Hi Hl RT NB SP HB D SV.
  destruct (C66_decoded_is_printable TId C reg X ctxf U ind lead st t bs v r HU Hi Hl SP HB D) as (text & P & R).
  destruct (C24_encode_inverts_decode TId C reg X ctxf t v bs r RT NB HB D SV) as (pre & -> & [F E]).
  exists text, (unsigned_form v), pre. split; [exact P|]. split; [exact R|]. split; [reflexivity|]. exists F. intro out. rewrite encode_unsigned. apply E.
Qed.
Print Assumptions C66_scale_text_scale.

(** With bit sequences, whose unused bits are not part of the value: bytes of the same length that decode to the same value. *)
Theorem C66_scale_text_scale_bits : forall TId C (reg : TId -> resolution TId) X (ctxf : TId -> C) U ind lead st t bs v r, unicode_ok U -> ws ind -> ws lead ->
  rt_ok reg X -> speakable (is_ident U) reg -> is_bytes bs -> decodes reg X ctxf t bs v r -> (x_len64 X = true -> short v) ->
  exists text v' pre pre', to_text U ind lead st v = Some text /\ from_str U text = (Ok v', []) /\ bs = pre ++ r /\
    encodes reg X v' t pre' /\ length pre' = length pre /\ decodes reg X ctxf t pre' v [].
Proof.
  intros TId C reg X ctxf U ind lead st t bs v r HU Hi Hl RT SP HB D SV.
  destruct (C66_decoded_is_printable TId C reg X ctxf U ind lead st t bs v r HU Hi Hl SP HB D) as (text & P & R).
  destruct (C24_reencode_stable TId C reg X ctxf t v bs r RT HB D SV) as (pre & pre' & -> & [F E] & L & D').
  exists text, (unsigned_form v), pre, pre'. split; [exact P|]. split; [exact R|]. split; [reflexivity|]. split; [exists F; intro out; rewrite encode_unsigned; apply E|auto].
Qed.
Print Assumptions C66_scale_text_scale_bits.

(** A registry that meets all these hypotheses, and a run through it: struct { e: enum, t: (u8, bool) }, 16-bit signed numbers. *)
Definition demo_text (t : nat) : resolution nat := match t with 10%nat | 14%nat | 20%nat | 29%nat => ResNotFound | _ => demo_rt t end.
Lemma demo_text_sub t r : demo_text t = ResTy r -> demo_rt t = ResTy r.
Proof. unfold demo_text. intro R. do 31 (destruct t as [|t]; [first [discriminate R|exact R]|]). discriminate. Qed.
Example C66_demo_speakable : speakable (is_ident ascii_unicode) demo_text.
Proof.
  split.
  - intro t. do 31 (destruct t as [|t]; [split; discriminate|]). split; discriminate.
  - intros t vs v R HI. do 31 (destruct t as [|t]; [first [discriminate R|injection R as <-; destruct HI as [<-|[<-|[]]]; reflexivity]|]). discriminate.
Qed.
Lemma demo_text_transparent t u : transparent demo_text t u -> transparent demo_rt t u.
Proof. intro H. inversion H; subst; [apply Tr_struct|apply Tr_tuple]; now apply demo_text_sub. Qed.
Lemma demo_text_wraps1 t u : wraps1 demo_text t u -> wraps1 demo_rt t u.
Proof. intro H. inversion H; subst; econstructor; apply demo_text_sub; eassumption. Qed.
Example C66_demo_rt_ok : rt_ok demo_text xdemo.
Proof.
  pose proof C24_demo_rt_ok as RT. constructor.
  - intros t fs R. eapply (rt_fields _ _ RT), demo_text_sub, R.
  - intros t vs R. eapply (rt_variants _ _ RT), demo_text_sub, R.
  - intros t1 t2 t3 u H1 H2 _ _. apply demo_text_transparent, demo_transparent in H1 as [-> ->]. apply demo_text_transparent, demo_transparent in H2 as [H2 _]. discriminate.
  - intros t t' u e R Ch R'. apply demo_text_sub in R, R'. revert R'. eapply (rt_compact _ _ RT); [exact R|].
    clear R. induction Ch; [constructor|]. econstructor; [apply demo_text_wraps1; eassumption|assumption].
  - reflexivity.
  - reflexivity.
Qed.
Example C66_demo_no_bits : forall t st o, demo_text t <> ResTy (TBitSeq st o).
Proof. intros t st o. do 31 (destruct t as [|t]; [discriminate|]). discriminate. Qed.
Example C66_run :
  let v := named_composite [(s2l "e", named_variant (s2l "B") [(s2l "x", vbool true); (s2l "y", unnamed_composite [vu128 9])]); (s2l "t", unnamed_composite [vu128 3; vbool false])] in
  let text := s2l "{ e: B { x: true, y: (9) }, t: (3, false) }" in
  decodes demo_text xdemo (fun _ => tt) 23%nat [5; 1; 4; 9; 3; 0] v [] /\ display ascii_unicode false v = Some text /\
  from_str ascii_unicode text = (Ok v, []) /\ encodes demo_text xdemo v 23%nat [5; 1; 4; 9; 3; 0].
Proof. cbv zeta. split; [exists 8%nat; reflexivity|]. split; [reflexivity|]. split; [reflexivity|]. exists 8%nat. reflexivity. Qed.
(** A signed number loses its sign type in the text, and still gives the same bytes. *)
Example C66_signed :
  decodes demo_text xdemo (fun _ => tt) 17%nat [5; 0] (vi128 5) [] /\ display ascii_unicode false (vi128 5) = Some (s2l "5") /\
  from_str ascii_unicode (s2l "5") = (Ok (vu128 5), []) /\ encodes demo_text xdemo (vu128 5) 17%nat [5; 0].
Proof. split; [exists 8%nat; reflexivity|]. split; [reflexivity|]. split; [reflexivity|]. exists 8%nat. reflexivity. Qed.

(** The two exceptions are real: a decoded 256-bit number cannot be printed at all, and an enum with a variant [truefoo] prints
    text that is not read back. *)
Theorem C66_speakable_refuted : exists (reg : nat -> resolution nat) X t1 bs1 v1 t2 bs2 v2 text,
  rt_ok reg X /\ is_bytes bs1 /\ is_bytes bs2 /\
  decodes reg X (fun _ => tt) t1 bs1 v1 [] /\ (forall ind lead st, to_text ascii_unicode ind lead st v1 = None) /\
  decodes reg X (fun _ => tt) t2 bs2 v2 [] /\ display ascii_unicode false v2 = Some text /\ forall v' r, from_str ascii_unicode text = (Ok v', r) -> v' <> v2.
Proof.
  exists (fun t => match t with 0%nat => ResTy (TPrim PtU256) | 1%nat => ResTy (TVariant [VInfo (s2l "truefoo") 0 []]) | _ => ResNotFound end), xdemo.
  exists 0%nat, (repeat 7 32), (primitive (PU256 (repeat 7 32))), 1%nat, [0], (unnamed_variant (s2l "truefoo") []), (s2l "truefoo ()").
  split.
  { constructor.
    - intros t fs R. destruct t as [|[|t]]; discriminate.
    - intros t vs R. destruct t as [|[|t]]; try discriminate. injection R as <-. split; repeat constructor; cbn; intuition.
    - intros t1 t2 t3 u H. inversion H as [? ? R|? ? R]; destruct t1 as [|[|t1]]; discriminate.
    - intros t t' u e R. destruct t as [|[|t]]; discriminate.
    - reflexivity.
    - reflexivity. }
  split; [repeat constructor|]. split; [repeat constructor|]. split; [exists 3%nat; reflexivity|]. split; [reflexivity|]. split; [exists 3%nat; reflexivity|].
  split; [reflexivity|]. intros v' r H. vm_compute in H. injection H as <- <-. discriminate.
Qed.
Print Assumptions C66_speakable_refuted.
