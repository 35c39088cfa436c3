(** * Props_Ident: C108 the text of a value identifies it *)
From Verif Require Import Base Value Spec_Value ValueFacts Chars Parse Spec_Grammar Fmt Spec_Fmt FmtFacts FmtText Registry Spec_Scale Spec_Decode Spec_Encode Scale ScaleFacts BitsFacts
  LenFacts Decode DecodeFacts DecodeMore Encode EncodeFacts EncodeTerm EncodeSound EncodeMore EncodeWrap EncodeText EditTextFacts IdentFacts.
From Verif Require Import Demo Props_Fmt Props_Decode Props_Encode Props_Doors.
Local Open Scope N_scope.

(** ** Any two values *)
(** Two printable values have the same text exactly if they are the same up to contexts and the type of nonnegative integers ([unsigned_form], C04), whatever the style. *)
Theorem C108_same_text : forall (A B : Type) U ind lead st (v1 : value A) (v2 : value B), unicode_ok U -> ws ind -> ws lead ->
  text_ok (is_ident U) v1 = true -> text_ok (is_ident U) v2 = true ->
  (to_text U ind lead st v1 = to_text U ind lead st v2 <-> unsigned_form v1 = unsigned_form v2).
Proof.
  intros A B U ind lead st v1 v2 UO Hi Hl O1 O2. split; intro H.
  - destruct (C04_text_roundtrip A U ind lead st v1 [] UO Hi Hl O1 I) as (t1 & P1 & R1). destruct (C04_text_roundtrip B U ind lead st v2 [] UO Hi Hl O2 I) as (t2 & P2 & R2).
    assert (t2 = t1) as -> by congruence. rewrite R1 in R2. congruence.
  - rewrite <- (text_unsigned U ind lead st v1), <- (text_unsigned U ind lead st v2), H. reflexivity.
Qed.
Print Assumptions C108_same_text.

(** Also texts in two different styles: where they coincide, the values do. *)
Theorem C108_across_styles : forall (A B : Type) U ind lead st ind' lead' st' (v1 : value A) (v2 : value B) t, unicode_ok U -> ws ind -> ws lead -> ws ind' -> ws lead' ->
  text_ok (is_ident U) v1 = true -> text_ok (is_ident U) v2 = true ->
  to_text U ind lead st v1 = Some t -> to_text U ind' lead' st' v2 = Some t -> unsigned_form v1 = unsigned_form v2.
Proof.
  intros A B U ind lead st ind' lead' st' v1 v2 t UO Hi Hl Hi' Hl' O1 O2 P1 P2.
  destruct (C04_text_roundtrip A U ind lead st v1 [] UO Hi Hl O1 I) as (t1 & Q1 & R1). destruct (C04_text_roundtrip B U ind' lead' st' v2 [] UO Hi' Hl' O2 I) as (t2 & Q2 & R2).
  assert (t1 = t) as -> by congruence. assert (t2 = t) as -> by congruence. congruence.
Qed.
Print Assumptions C108_across_styles.

(** Values with the same text encode alike, at every type of every registry: to the same bytes, or with the same outcome. *)
Theorem C108_encode_alike : forall (A B : Type) U ind lead st (v1 : value A) (v2 : value B), unicode_ok U -> ws ind -> ws lead ->
  text_ok (is_ident U) v1 = true -> text_ok (is_ident U) v2 = true -> to_text U ind lead st v1 = to_text U ind lead st v2 ->
  forall TId (reg : TId -> resolution TId) X F t out, encode reg X F v1 t out = encode reg X F v2 t out.
Proof.
  intros A B U ind lead st v1 v2 UO Hi Hl O1 O2 H TId reg X F t out. apply C108_same_text in H; [|assumption..].
  rewrite <- (encode_unsigned reg X F v1), <- (encode_unsigned reg X F v2), H. reflexivity.
Qed.
Print Assumptions C108_encode_alike.

(** ** Decoded values *)
(** What is decoded at one type can be told apart by its text: equal texts, in whatever styles, mean equal values, contexts and integer types included; the bytes read
    are equally many, and the same where no bit sequences (whose unused bits are not part of the value) occur. *)
Theorem C108_decoded : forall TId C (reg : TId -> resolution TId) X (ctxf : TId -> C) U ind lead st ind' lead' st' t bs1 v1 r1 bs2 v2 r2 text,
  unicode_ok U -> ws ind -> ws lead -> ws ind' -> ws lead' -> speakable (is_ident U) reg -> variant_names_differ reg ->
  is_bytes bs1 -> is_bytes bs2 -> decodes reg X ctxf t bs1 v1 r1 -> decodes reg X ctxf t bs2 v2 r2 ->
  to_text U ind lead st v1 = Some text -> to_text U ind' lead' st' v2 = Some text ->
  v1 = v2 /\ exists pre1 pre2, bs1 = pre1 ++ r1 /\ bs2 = pre2 ++ r2 /\ length pre1 = length pre2 /\ ((forall t st o, reg t <> ResTy (TBitSeq st o)) -> pre1 = pre2).
Proof.
  intros TId C reg X ctxf U ind lead st ind' lead' st' t bs1 v1 r1 bs2 v2 r2 text UO Hi Hl Hi' Hl' [H256 HN] ND HB1 HB2 D1 D2 P1 P2.
  apply C21_decode_iff_encoding in D1 as (b1 & -> & E1); [|exact HB1]. apply C21_decode_iff_encoding in D2 as (b2 & -> & E2); [|exact HB2].
  assert (O1 : text_ok (is_ident U) v1 = true) by exact (proj1 (enc_text_ok reg (x_maxbits X) (x_len X) ctxf PU256 false (is_ident U) H256 HN) _ _ _ _ E1).
  assert (O2 : text_ok (is_ident U) v2 = true) by exact (proj1 (enc_text_ok reg (x_maxbits X) (x_len X) ctxf PU256 false (is_ident U) H256 HN) _ _ _ _ E2).
  assert (E : unsigned_form v1 = unsigned_form v2) by (eapply C108_across_styles; [exact UO|exact Hi|exact Hl|exact Hi'|exact Hl'|eassumption..]).
  assert (v1 = v2) as <- by (eapply (proj1 (printed_alike reg (x_maxbits X) (x_len X) ctxf false ND)); eassumption). split; [reflexivity|].
  exists b1, b2. split; [reflexivity|]. split; [reflexivity|]. split.
  - apply (proj1 (strictify reg _ _ _)) in E1 as (c1 & E1 & L1). apply (proj1 (strictify reg _ _ _)) in E2 as (c2 & E2 & L2).
    assert (c1 = c2) as <- by (eapply C23_unique_encoding; eassumption). congruence.
  - intro NB. apply (no_bits_strict reg _ _ _ NB) in E1, E2. eapply C23_unique_encoding; eassumption.
Qed.
Print Assumptions C108_decoded.

(** ** Normal forms *)
(** A text that reads back is brought into a normal form by reading and displaying it: the normal form reads back as the same value (up to integer types), and is its own
    normal form.  By [C108_same_text], two texts have the same normal form exactly if they denote the same value. *)
Theorem C108_normal : forall U alternate t v, unicode_ok U -> from_str U t = (Ok v, []) -> text_ok (is_ident U) v = true ->
  exists t', display U alternate v = Some t' /\ from_str U t' = (Ok (unsigned_form v), []) /\ display U alternate (unsigned_form v) = Some t'.
Proof.
  intros U alternate t v UO R OK. destruct (C04_text_roundtrip unit U (s2l "  ") [] (if alternate then Pretty 0 else Normal) v [] UO eq_refl eq_refl OK I) as (t' & P & R').
  rewrite app_nil_r in R'. exists t'. split; [exact P|]. split; [exact R'|]. unfold display. rewrite text_unsigned. exact P.
Qed.
Print Assumptions C108_normal.

(** ** What a text does not tell *)
(** A text tells neither the integer type nor the type it was decoded at; so texts of data of different types can coincide where the data do not. *)
Theorem C108_across_types_refuted : exists X t1 t2 bs1 bs2 (v1 v2 : value unit) text,
  decodes demo_text X (fun _ => tt) t1 bs1 v1 [] /\ decodes demo_text X (fun _ => tt) t2 bs2 v2 [] /\
  display ascii_unicode false v1 = Some text /\ display ascii_unicode false v2 = Some text /\ v1 <> v2 /\ bs1 <> bs2.
Proof.
  exists xdemo, 1%nat, 17%nat, [5; 0; 0; 0], [5; 0], (vu128 5), (vi128 5), (s2l "5"). split; [exists 3%nat; reflexivity|]. split; [exists 3%nat; reflexivity|].
  split; [reflexivity|]. split; [reflexivity|]. split; discriminate.
Qed.
Print Assumptions C108_across_types_refuted.

(** ** Non-vacuity *)
Definition ident_value (b : bool) : value unit :=
  named_composite [(s2l "e", named_variant (s2l "B") [(s2l "x", vbool true); (s2l "y", unnamed_composite [vu128 9])]); (s2l "t", unnamed_composite [vu128 3; vbool b])].
Example C108_example : speakable (is_ident ascii_unicode) demo_text /\
  decodes demo_text xdemo (fun _ => tt) 23%nat [5; 1; 4; 9; 3; 0] (ident_value false) [] /\ decodes demo_text xdemo (fun _ => tt) 23%nat [5; 1; 4; 9; 3; 1; 77] (ident_value true) [77] /\
  display ascii_unicode false (ident_value false) = Some (s2l "{ e: B { x: true, y: (9) }, t: (3, false) }") /\
  display ascii_unicode false (ident_value true) = Some (s2l "{ e: B { x: true, y: (9) }, t: (3, true) }").
Proof. split; [exact C66_demo_speakable|]. split; [exists 8%nat; reflexivity|]. split; [exists 8%nat; reflexivity|]. split; vm_compute; reflexivity. Qed.
Example C108_normal_example :
  match from_str ascii_unicode (s2l "{a:(1_000,-5,+7 ),'b'") with (Err _, _) => True | _ => False end /\
  match from_str ascii_unicode (s2l "{""a"":(1_000,-5,+7 ),b:v""C""{}}") with
  | (Ok v, []) => text_ok (is_ident ascii_unicode) v = true /\ display ascii_unicode false v = Some (s2l "{ a: (1000, -5, 7), b: C {} }")
  | _ => False
  end.
Proof. split; vm_compute; auto. Qed.
