(** * Props_TextData: C68: Rust data as text. *)
From Verif Require Import Base Value Spec_Value ValueFacts Chars Parse Spec_Grammar Fmt Spec_Fmt FmtFacts FmtText Registry Spec_Scale Scale ScaleFacts BitsFacts Decode DecodeFacts Encode EncodeFacts
  Spec_Encode EncodeSound EncodeComplete EncodeTerm EncodeMore EncodeText Serde SerdeFacts Spec_Serde SerdeRt SerdeUni Spec_Rust RustFacts Spec_TextData SerdeText
  Demo Props_Fmt Props_Decode Props_Encode Props_Serde Props_Doors Props_Rust.
Open Scope N_scope.

(** ** C68 *)
(** Whatever [from_value] reads out of a value, it reads also after the value was written as text (any layout) and parsed. *)
Theorem C68_reading_survives_text : forall (T : Type) U ind lead st (v : value T) t d, unicode_ok U -> ws ind -> ws lead -> text_ok (is_ident U) v = true ->
  no_values t -> from_value t v = Ok d ->
  exists text v', to_text U ind lead st v = Some text /\ from_str U text = (Ok v', []) /\ from_value t v' = Ok d.
Proof.
  intros T U ind lead st v t d HU Hi Hl Hok NV H. destruct (C04_text_roundtrip T U ind lead st v [] HU Hi Hl Hok I) as (text & P & R).
  rewrite app_nil_r in R. exists text, (unsigned_form v). split; [exact P|]. split; [exact R|]. exact (de_keeps t NV (SrcValue v) d H).
Qed.
Print Assumptions C68_reading_survives_text.

(** Rust data is kept by [to_value], printing, parsing and [from_value]. *)
Theorem C68_data_through_text : forall U ind lead st t d, unicode_ok U -> ws ind -> ws lead -> ty_wf t -> no_values t -> of_type t d -> sayable (is_ident U) d ->
  exists v text v', to_value t d = Ok v /\ to_text U ind lead st v = Some text /\ from_str U text = (Ok v', []) /\ from_value t v' = Ok d.
Proof.
  intros U ind lead st t d HU Hi Hl WF NV OT SY. destruct (C40_round_trip t d WF OT) as (v & TV & FV). exists v.
  destruct (C68_reading_survives_text unit U ind lead st v t d HU Hi Hl) as (text & v' & P & R & F); [|exact NV|exact FV|eauto 6].
  exact (say_all (is_ident U) t WF d v NV OT SY TV).
Qed.
Print Assumptions C68_data_through_text.

(** Around the whole crate: the SCALE bytes of a datum are decoded, the value is printed, the text is parsed; [from_value] gives the datum and encoding gives the bytes. *)
Theorem C68_full_circle : forall TId (reg : TId -> resolution TId) X U ind lead st t R d bs, unicode_ok U -> ws ind -> ws lead ->
  rt_ok reg X -> type_info reg false t R -> ty_wf (serde_of R) -> scale R d bs -> sayable (is_ident U) d ->
  exists v text v', decodes reg X (fun t => t) t bs v [] /\ to_text U ind lead st v = Some text /\ from_str U text = (Ok v', []) /\
    from_value (serde_of R) v' = Ok d /\ encodes reg X v' t bs.
Proof.
  intros TId reg X U ind lead st t R d bs HU Hi Hl RT HI WF HS SY.
  destruct (proj1 (agree_mut reg (x_maxbits X) (fun t => t) PU256 true) R d bs HS t HI) as (v & E & TV & OT).
  destruct (C24_reencode_exact TId TId reg X (fun t => t) t v bs RT E) as [D [F EN]].
  assert (NV : forall R, no_values (serde_of R)).
  { clear. fix IH 1. intros [ |sg w|w| | |r|r|r n|l| |r|l|l|l]; cbn [serde_of no_values]; try exact I; try apply IH.
    - induction n; cbn [repeat fold_right]; auto.
    - induction l; cbn [map fold_right]; auto.
    - induction l; cbn [map fold_right]; auto.
    - induction l as [|[n r] l IHl]; cbn [map fold_right]; auto.
    - induction l as [|[n [idx b]] l IHl]; cbn [map fold_right]; [exact I|]. split; [|exact IHl]. destruct b as [|r|rs|fs]; cbn [shape_map]; [exact I|apply IH| |].
      + induction rs; cbn [map fold_right]; auto.
      + induction fs as [|[m r] fs IHf]; cbn [map fold_right]; auto. }
  assert (TX : text_ok (is_ident U) v = true).
  { assert (TX : text_ok (is_ident U) (remove_context v) = true) by exact (say_all (is_ident U) (serde_of R) WF d _ (NV R) OT SY TV).
    rewrite <- TX. clear. induction v as [dd ctx IH] using value_ind'. destruct dd as [[l|l]|n [l|l]|b|p]; try reflexivity; cbn [children values] in IH;
      unfold remove_context in *; rewrite map_ctx_unfold; cbn [vdef_map composite_map text_ok]; try f_equal.
    - rewrite Forall_map in IH. induction IH as [|kv l H _ IHl]; cbn [map forallb fst snd]; [reflexivity|]. now rewrite H, IHl.
    - induction IH as [|x l H _ IHl]; cbn [map forallb]; [reflexivity|]. now rewrite H, IHl.
    - rewrite Forall_map in IH. induction IH as [|kv l H _ IHl]; cbn [map forallb fst snd]; [reflexivity|]. now rewrite H, IHl.
    - induction IH as [|x l H _ IHl]; cbn [map forallb]; [reflexivity|]. now rewrite H, IHl. }
  destruct (C40_round_trip (serde_of R) d WF OT) as (w & W1 & W2). unfold to_value in W1. rewrite TV in W1. injection W1 as <-.
  destruct (C04_text_roundtrip TId U ind lead st v [] HU Hi Hl TX I) as (text & P & RD). rewrite app_nil_r in RD.
  exists v, text, (unsigned_form v). split; [exact D|]. split; [exact P|]. split; [exact RD|]. split.
  - apply (de_keeps (serde_of R) (NV R) (SrcValue v)). rewrite <- W2. apply C53_same_shape_same_result. symmetry. apply remove_context_id.
  - exists F. intro out. rewrite encode_unsigned. apply EN.
Qed.
Print Assumptions C68_full_circle.

(** The demo datum of C67 meets the hypotheses ... *)
Example C68_demo_sayable : sayable (is_ident ascii_unicode) rust_data.
Proof. vm_compute. repeat split. Qed.
(** ... also those about its registry ... *)
Example C68_demo_rt_ok : rt_ok rust_reg xdemo.
Proof.
  constructor.
  - intros t fs R. unfold names_ok. do 12 (destruct t as [|t]; [try discriminate R; try (injection R as <-; cbn; intro; repeat constructor; cbn; intuition discriminate)|]). discriminate.
  - intros t vs R.
    do 12 (destruct t as [|t]; [first [discriminate R|injection R as <-; unfold names_ok; cbn [map vi_name vi_fields fst]; split;
      [repeat (constructor; [cbn [In]; intuition discriminate|]); constructor
      |repeat (constructor; [let K := fresh in intro K; first [exfalso; apply K; cbn [In]; left; reflexivity|repeat (constructor; [cbn [In]; intuition discriminate|]); constructor]|]); constructor]]|]). discriminate.
  - intros t1 t2 t3 u H. inversion H as [? ? R|? ? R]; subst; do 12 (destruct t1 as [|t1]; [discriminate R|]); discriminate.
  - intros t t' u e R Ch. do 12 (destruct t as [|t]; [first [discriminate R|injection R as <-; inversion Ch as [|? ? ? W]; subst; [discriminate|inversion W; discriminate]]|]). discriminate.
  - reflexivity.
  - reflexivity.
Qed.
(** ... and its text is this. *)
Example C68_demo_text : match to_value (serde_of rust_demo) rust_data with
  | Ok v => display ascii_unicode false v = Some (s2l "{ id: 300, who: Some (""me""), kind: At { x: -2 }, xs: (5, 6), l: ((9, true)) }")
  | Err _ => False end.
Proof. vm_compute. reflexivity. Qed.

(** A [Value] inside the data is not kept: its signed five comes back unsigned. *)
Theorem C68_values_refuted : exists t d v text v' d', ty_wf t /\ of_type t d /\ sayable (is_ident ascii_unicode) d /\ to_value t d = Ok v /\
  display ascii_unicode false v = Some text /\ from_str ascii_unicode text = (Ok v', []) /\ from_value t v' = Ok d' /\ d' <> d.
Proof.
  exists TyValue, (XValue (vi128 5)), (vi128 5), (s2l "5"), (vu128 5), (XValue (vu128 5)). split; [exact I|]. split.
  - exists (vi128 5). split; [reflexivity|]. split; intros path; [intro w|intros n c ctx]; destruct path as [|i path]; cbn; try discriminate; try (destruct i; discriminate). intro H. injection H as <-. exact I.
  - repeat split. discriminate.
Qed.
Print Assumptions C68_values_refuted.
(** The other direction fails: bytes can be read out of the text of signed numbers, not out of the numbers. *)
Theorem C68_converse_refuted : exists t (v : value unit) text v' d e, no_values t /\ text_ok (is_ident ascii_unicode) v = true /\
  display ascii_unicode false v = Some text /\ from_str ascii_unicode text = (Ok v', []) /\ from_value t v' = Ok d /\ from_value t v = Err e.
Proof. exists TyBytes, (unnamed_composite [vi128 5]), (s2l "(5)"), (unnamed_composite [vu128 5]), (XBytes [5]), DCustom. repeat split. Qed.
Print Assumptions C68_converse_refuted.
