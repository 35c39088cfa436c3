(** * Props_DataEdit: C113 (data edited where they lie, in values and in text) *)
From Verif Require Import Base Value Spec_Value ValueFacts Chars Parse Spec_Grammar ParseFacts ParseNum Scale Spec_Scale Serde Spec_Serde Spec_Maps Spec_Reads ReadsFacts Spec_ToValue ToValueFacts Fmt Spec_Fmt FmtFacts FmtText Spec_TextData SerdeText
  Registry ScaleFacts BitsFacts Decode DecodeFacts Encode EncodeFacts Spec_Encode EncodeSound EncodeComplete EncodeTerm EncodeMore EncodeText Spec_Rust EditTextFacts RustFacts Spec_Edit Spec_Splice SpliceFacts Spec_Places PlacesFacts Spec_DataEdit DataEditFacts Props_Value Props_Parse Props_Fmt Props_Serde Props_Reads Props_ToValue Demo Props_Decode Props_Encode Props_Doors Props_Rust Props_TextData Props_Splice.
Local Open Scope N_scope.

(** [to_value] puts all parts in place. *)
Theorem C113_written : forall t x v, well_named t -> ty_wf t -> no_values t -> data_of t x -> to_value t x = Ok v -> laid_out t x v.
Proof. intros t x v W TW NV D E. apply all_lays; auto. destruct (C94_to_value t x W D) as (v' & E' & H). apply H. congruence. Qed.
Print Assumptions C113_written.

(** What lies in a value is what is read from it, and any value that is read will do for the parts. *)
Theorem C113_read : forall (T : Type) t x (v : value T), well_named t -> laid_out t x v \/ laid_or_read t x v -> from_value t v = Ok x.
Proof. intros T t x v W [H|H]; apply exact; try exact W; eapply lies_read; eassumption. Qed.
Print Assumptions C113_read.

(** Printing (in any layout) and parsing leaves the parts in place. *)
Theorem C113_printed : forall (T : Type) U ind lead st t x (v : value T), unicode_ok U -> ws ind -> ws lead -> no_values t -> text_ok (is_ident U) v = true -> laid_out t x v ->
  exists text v', to_text U ind lead st v = Some text /\ from_str U text = (Ok v', []) /\ laid_out t x v'.
Proof.
  intros T U ind lead st t x v HU Hi Hl NV Hok LO. destruct (C04_text_roundtrip T U ind lead st v [] HU Hi Hl Hok I) as (text & P & R).
  rewrite app_nil_r in R. exists text, (unsigned_form v). split; [exact P|]. split; [exact R|]. now apply lies_unsigned.
Qed.
Print Assumptions C113_printed.

(** Parts are found where their names and positions say. *)
Theorem C113_part : forall (T : Type) t x p s y (v : value T), well_named t -> laid_out t x v -> part t x x p s y y -> exists w, at_path v p = Some w /\ laid_out s y w /\ from_value s w = Ok y.
Proof.
  intros T t x p s y v W LO P. destruct (part_lies scalar _ _ _ _ _ _ _ (fun t H => H) P W v LO) as (W1 & w & LW & LP & _). exists w. split; [now apply C02_at_path|]. split; [exact LW|]. apply C113_read; auto.
Qed.
Print Assumptions C113_part.

(** Another value put there, which the part's type reads as [y'], makes the whole read as the data with [y'] as that part; if it was laid out, so is the whole. *)
Theorem C113_edit : forall (T : Type) t x x' p s y y' (v w : value T), well_named t -> laid_out t x v -> part t x x' p s y y' ->
  (exists v', put v p w v') /\
  (from_value s w = Ok y' -> forall v', put v p w v' -> from_value t v' = Ok x') /\
  (laid_out s y' w -> forall v', put v p w v' -> laid_out t x' v').
Proof.
  intros T t x x' p s y y' v w W LO P. destruct (part_lies (fun _ => True) _ _ _ _ _ _ _ (fun t _ => I) P W v LO) as (W1 & w0 & LW & LP & HP). split; [|split].
  - eapply part_puts; eassumption.
  - intros R v' PV. destruct (HP w (L_leaf _ _ _ _ I R)) as (v2 & L2 & P2). rewrite (put_one _ _ _ _ PV _ P2). apply C113_read; [exact W|now right].
  - intros R v' PV. destruct (part_lies scalar _ _ _ _ _ _ _ (fun t H => H) P W v LO) as (_ & w1 & _ & _ & HP1). destruct (HP1 w R) as (v2 & L2 & P2). rewrite (put_one _ _ _ _ PV _ P2). exact L2.
Qed.
Print Assumptions C113_edit.

(** Any history of edits. *)
Inductive edited {T} (t : ty) (x : data) (v : value T) : data -> value T -> Prop :=
| Ed_none : edited t x v x v
| Ed_more x1 v1 p s y y' x2 w v2 : edited t x v x1 v1 -> part t x1 x2 p s y y' -> laid_out s y' w -> put v1 p w v2 -> edited t x v x2 v2.
Theorem C113_edits : forall (T : Type) t x x' (v v' : value T), well_named t -> laid_out t x v -> edited t x v x' v' -> laid_out t x' v' /\ from_value t v' = Ok x'.
Proof.
  intros T t x x' v v' W LO E. assert (L : laid_out t x' v'); [|split; [exact L|apply C113_read; auto]].
  induction E as [|x1 v1 p s y y' x2 w v2 _ IH P LW PV]; [exact LO|]. destruct (C113_edit T t x1 x2 p s y y' v1 w W IH P) as (_ & _ & K). now apply K.
Qed.
Print Assumptions C113_edits.

Lemma swap_put {C} p (u w v v' : value C) : swap p u w v v' -> put v (map LIdx p) w v'.
Proof.
  assert (R : forall c c' i (x x' : value C), replaced c c' i x x' -> put_field c (LIdx i) x x' c').
  { intros c c' i x x' [(l1 & k & l2 & <- & -> & ->)|(l1 & l2 & <- & -> & ->)]; constructor. }
  induction 1; cbn [map]; [constructor|eapply Put_composite; [apply R; eassumption|assumption]|eapply Put_variant; [apply R; eassumption|assumption]].
Qed.

(** Every path to a part, by names or positions, can be given by positions only. *)
Lemma child_position t x x1 l s a a1 : child t x x1 l s a a1 -> exists i, child t x x1 (LIdx i) s a a1 /\ child t x x (LIdx i) s a a.
Proof. intro H. inv H; (eexists; split; econstructor; solve [eassumption|right; reflexivity|reflexivity]). Qed.
Theorem C113_positions : forall t x x' p s y y', part t x x' p s y y' -> exists q, part t x x' (map LIdx q) s y y' /\ part t x x (map LIdx q) s y y.
Proof.
  intros t x x' p s y y' P. induction P as [t x x'|t x x' l t1 a a' p s y y' H _ (q & Q1 & Q2)]; [exists []; split; constructor|].
  destruct (child_position _ _ _ _ _ _ _ H) as (i & C1 & C2). exists (i :: q). cbn [map]. split; econstructor; eassumption.
Qed.
Print Assumptions C113_positions.

(** In text: every part has its place, and any text which the part's type reads can be put there. *)
Theorem C113_edit_text : forall U text v t x p s y, unicode_ok U -> well_named t -> from_str U text = (Ok v, []) -> laid_out t x v -> part t x x (map LIdx p) s y y ->
  exists a z b w, text = a ++ z ++ b /\ from_str U z = (Ok w, []) /\ from_value s w = Ok y /\
    forall z' w' x' y', from_str U z' = (Ok w', []) -> from_value s w' = Ok y' -> part t x x' (map LIdx p) s y y' ->
      exists v', from_str U (a ++ z' ++ b) = (Ok v', []) /\ from_value t v' = Ok x' /\ (laid_out s y' w' -> laid_out t x' v').
Proof.
  intros U text v t x p s y HU W F LO P. destruct (C113_part _ _ _ _ _ _ _ W LO P) as (w & A & _ & RW). destruct (C105_substitute _ _ _ _ _ HU F A) as (a & z & b & E & FZ & K).
  exists a, z, b, w. split; [exact E|]. split; [exact FZ|]. split; [exact RW|]. intros z' w' x' y' F' R' P'. destruct (K z' w' F') as (v' & SW & FV). exists v'. split; [exact FV|].
  destruct (C113_edit _ t x x' _ s y y' v w' W LO P') as (_ & K1 & K2). apply swap_put in SW. split; [now apply K1|]. intro. now apply K2.
Qed.
Print Assumptions C113_edit_text.

(** So the path may use names, too. *)
Theorem C113_edit_text_by_name : forall U text v t x x' p s y y', unicode_ok U -> well_named t -> from_str U text = (Ok v, []) -> laid_out t x v -> part t x x' p s y y' ->
  exists a z b, text = a ++ z ++ b /\ (exists w, from_str U z = (Ok w, []) /\ from_value s w = Ok y) /\
    forall z' w', from_str U z' = (Ok w', []) -> from_value s w' = Ok y' -> exists v', from_str U (a ++ z' ++ b) = (Ok v', []) /\ from_value t v' = Ok x' /\ (laid_out s y' w' -> laid_out t x' v').
Proof.
  intros U text v t x x' p s y y' HU W F LO P. destruct (C113_positions _ _ _ _ _ _ _ P) as (q & P' & P0). destruct (C113_edit_text U text v t x q s y HU W F LO P0) as (a & z & b & w & E & FZ & R & K).
  exists a, z, b. split; [exact E|]. split; [eauto|]. intros z' w' F' R'. exact (K z' w' x' y' F' R' P').
Qed.
Print Assumptions C113_edit_text_by_name.

(** From the data: written, printed in any layout, one part changed in the text, parsed and read. *)
Theorem C113_full_circle : forall U ind lead st t x p s y, unicode_ok U -> ws ind -> ws lead -> ty_wf t -> no_values t -> of_type t x -> sayable (is_ident U) x ->
  part t x x (map LIdx p) s y y ->
  exists v a z b, to_value t x = Ok v /\ to_text U ind lead st v = Some (a ++ z ++ b) /\
    forall z' w' x' y', from_str U z' = (Ok w', []) -> from_value s w' = Ok y' -> part t x x' (map LIdx p) s y y' ->
      exists v', from_str U (a ++ z' ++ b) = (Ok v', []) /\ from_value t v' = Ok x'.
Proof.
  intros U ind lead st t x p s y HU Hi Hl TW NV OT SY P. pose proof (wf_named t TW) as W. pose proof (of_type_data t TW NV x OT) as D. destruct (C40_round_trip t x TW OT) as (v & TV & _). exists v.
  pose proof (say_all (is_ident U) t TW x v NV OT SY TV) as OKV.
  destruct (C113_printed unit U ind lead st t x v HU Hi Hl NV OKV (C113_written t x v W TW NV D TV)) as (text & v1 & PT & F & LO).
  destruct (C113_edit_text U text v1 t x p s y HU W F LO P) as (a & z & b & w & -> & _ & _ & K). exists a, z, b. split; [exact TV|]. split; [exact PT|].
  intros z' w' x' y' F' R' P'. destruct (K z' w' x' y' F' R' P') as (v' & K1 & K2 & _). eauto.
Qed.
Print Assumptions C113_full_circle.

(** The same from SCALE bytes: decoded, printed, one part changed in the text, parsed and read as Rust data. *)
Lemma scale_no_values R : no_values (serde_of R).
Proof.
  revert R. fix IH 1. intros [ |sg w|w| | |r|r|r n|l| |r|l|l|l]; cbn [serde_of no_values]; try exact I; try apply IH.
  - induction n; cbn [repeat fold_right]; auto.
  - induction l; cbn [map fold_right]; auto.
  - induction l; cbn [map fold_right]; auto.
  - induction l as [|[n r] l IHl]; cbn [map fold_right]; auto.
  - induction l as [|[n [idx b]] l IHl]; cbn [map fold_right]; [exact I|]. split; [|exact IHl]. destruct b as [|r|rs|fs]; cbn [shape_map]; [exact I|apply IH| |].
    + induction rs; cbn [map fold_right]; auto.
    + induction fs as [|[m r] fs IHf]; cbn [map fold_right]; auto.
Qed.
Lemma no_context_text {T} bare (v : value T) : text_ok bare (remove_context v) = text_ok bare v.
Proof.
  induction v as [dd ctx IH] using value_ind'. destruct dd as [[l|l]|n [l|l]|b|p]; try reflexivity; cbn [children values] in IH;
    unfold remove_context in *; rewrite map_ctx_unfold; cbn [vdef_map composite_map text_ok]; try f_equal.
  - rewrite Forall_map in IH. induction IH as [|kv l H _ IHl]; cbn [map forallb fst snd]; [reflexivity|]. now rewrite H, IHl.
  - induction IH as [|x l H _ IHl]; cbn [map forallb]; [reflexivity|]. now rewrite H, IHl.
  - rewrite Forall_map in IH. induction IH as [|kv l H _ IHl]; cbn [map forallb fst snd]; [reflexivity|]. now rewrite H, IHl.
  - induction IH as [|x l H _ IHl]; cbn [map forallb]; [reflexivity|]. now rewrite H, IHl.
Qed.
Lemma no_context_unsigned {T} (v : value T) : unsigned_form (remove_context v) = unsigned_form v.
Proof. apply unsigned_ctx. Qed.
Theorem C113_scale : forall TId (reg : TId -> resolution TId) X U ind lead st t R d bs p s y, unicode_ok U -> ws ind -> ws lead ->
  rt_ok reg X -> type_info reg false t R -> ty_wf (serde_of R) -> scale R d bs -> sayable (is_ident U) d -> part (serde_of R) d d (map LIdx p) s y y ->
  exists v a z b, decodes reg X (fun t => t) t bs v [] /\ to_text U ind lead st v = Some (a ++ z ++ b) /\
    forall z' w' d' y', from_str U z' = (Ok w', []) -> from_value s w' = Ok y' -> part (serde_of R) d d' (map LIdx p) s y y' ->
      exists v', from_str U (a ++ z' ++ b) = (Ok v', []) /\ from_value (serde_of R) v' = Ok d'.
Proof.
  intros TId reg X U ind lead st t R d bs p s y HU Hi Hl RT HI WF HS SY P.
  destruct (proj1 (agree_mut reg (x_maxbits X) (fun t => t) PU256 true) R d bs HS t HI) as (v & E & TV & OT).
  destruct (C24_reencode_exact TId TId reg X (fun t => t) t v bs RT E) as [D _]. pose proof (scale_no_values R) as NV. pose proof (wf_named _ WF) as W.
  assert (TX : text_ok (is_ident U) v = true) by (rewrite <- no_context_text; exact (say_all (is_ident U) (serde_of R) WF d _ NV OT SY TV)).
  destruct (C04_text_roundtrip TId U ind lead st v [] HU Hi Hl TX I) as (text & PT & RD). rewrite app_nil_r, <- no_context_unsigned in RD.
  assert (LO : laid_out (serde_of R) d (unsigned_form (remove_context v))).
  { apply lies_unsigned; [exact NV|]. apply C113_written; auto. now apply of_type_data. }
  destruct (C113_edit_text U text _ _ _ _ _ _ HU W RD LO P) as (a & z & b & w & -> & _ & _ & K). exists v, a, z, b. split; [exact D|]. split; [exact PT|].
  intros z' w' x' y' F' R' P'. destruct (K z' w' x' y' F' R' P') as (v' & K1 & K2 & _). eauto.
Qed.
Print Assumptions C113_scale.

(** It does not suffice that the data are read from the value: with fields in another order a position is the place of another part. *)
Theorem C113_only_read_refuted : exists t x x' s y y' (v w v' : value unit), well_named t /\ from_value t v = Ok x /\ part t x x' [LIdx 0] s y y' /\ from_value s w = Ok y' /\ put v [LIdx 0] w v' /\ from_value t v' <> Ok x'.
Proof.
  exists (TyStruct [(s2l "a", TyInt false 8); (s2l "b", TyInt false 8)]), (XStruct [(s2l "a", XInt 1); (s2l "b", XInt 2)]), (XStruct [(s2l "a", XInt 9); (s2l "b", XInt 2)]), (TyInt false 8), (XInt 1), (XInt 9),
    (named_composite [(s2l "b", vu128 2); (s2l "a", vu128 1)]), (vu128 9), (named_composite [(s2l "b", vu128 9); (s2l "a", vu128 1)]).
  split; [cbn; repeat split; repeat constructor; cbn; intuition discriminate|]. split; [reflexivity|].
  split; [eapply Pt_child; [apply (Ch_struct [] (s2l "a") _ [_] [] [_]); [reflexivity|right; reflexivity]|apply Pt_whole]|].
  split; [reflexivity|]. split; [eapply Put_composite; [apply (PF_position [] (s2l "b") _ _ [_])|apply Put_here]|]. vm_compute. discriminate.
Qed.
Print Assumptions C113_only_read_refuted.

(** ** Non-vacuity *)
Definition edit_ty : ty := TyStruct [(s2l "id", TyInt true 16); (s2l "tags", TyVec (TyOption (TyTuple [TyBool; TyString])))].
Definition edit_x (s : str) : data := XStruct [(s2l "id", XInt 7); (s2l "tags", XVec [XNone; XSome (XTuple [XBool true; XString s])])].
Example C113_good : well_named edit_ty /\ ty_wf edit_ty /\ no_values edit_ty /\ forall s, data_of edit_ty (edit_x s) /\ of_type edit_ty (edit_x s) /\ (forallb is_scalar s = true -> sayable (is_ident ascii_unicode) (edit_x s)).
Proof.
  assert (NN : ~ In (s2l "id") [s2l "tags"]) by (intros [E|[]]; discriminate E).
  split; [|split; [|split]].
  - cbn [well_named edit_ty fold_right map fst]. repeat (split || constructor); auto.
  - cbn [ty_wf edit_ty fold_right map fst]. split; [repeat constructor; auto|]. split; [right; left; reflexivity|]. repeat split.
  - cbn [no_values edit_ty fold_right]. repeat split.
  - intro s. split; [|split].
    + constructor. constructor; [|constructor; [|constructor]]; (split; [reflexivity|]); cbn [fst snd]; constructor; [cbn; lia|]. constructor; [constructor|]. constructor; [|constructor]. constructor. constructor. constructor; [constructor|]. constructor; [constructor|]. constructor.
    + cbn. eexists. split; [reflexivity|]. split; [reflexivity|]. split; [exists 7%Z; auto|]. split; [|exact I]. eexists. split; [reflexivity|]. constructor; [now left|]. constructor; [|constructor]. right. eexists. split; [reflexivity|].
      eexists. split; [reflexivity|]. split; [eexists; reflexivity|]. split; [eexists; reflexivity|exact I].
    + intro HS. cbn. repeat split; assumption.
Qed.
Definition edit_p : list nat := [1; 1; 0; 1]%nat.
Example C113_a_part s s' : part edit_ty (edit_x s) (edit_x s') (map LIdx edit_p) TyString (XString s) (XString s').
Proof.
  unfold edit_ty, edit_x, edit_p. cbn [map]. eapply Pt_child; [apply (Ch_struct [_] (s2l "tags") _ [] [_] []); [reflexivity|right; reflexivity]|].
  eapply Pt_child; [apply (Ch_vec _ [_] [])|]. eapply Pt_child; [apply Ch_some|]. eapply Pt_child; [apply (Ch_tuple [_] _ [] [_] []); reflexivity|]. apply Pt_whole.
Qed.
(** The printed text, with a string put in the place of another. *)
Example C113_text : match to_value edit_ty (edit_x (s2l "hi")) with Ok v => to_text ascii_unicode [] [] Normal v | Err _ => None end =
  Some (s2l "{ id: 7, tags: (None (), Some ((true, ""hi""))) }").
Proof. vm_compute. reflexivity. Qed.
Example C113_edited_text : match from_str ascii_unicode (s2l "{ id: 7, tags: (None (), Some ((true, ""good bye""))) }") with (Ok v, _) => from_value edit_ty v = Ok (edit_x (s2l "good bye")) | _ => False end.
Proof. vm_compute. reflexivity. Qed.
Example C113_applies : exists v a z b, to_value edit_ty (edit_x (s2l "hi")) = Ok v /\ to_text ascii_unicode [] [] Normal v = Some (a ++ z ++ b) /\
  exists v', from_str ascii_unicode (a ++ s2l """good bye""" ++ b) = (Ok v', []) /\ from_value edit_ty v' = Ok (edit_x (s2l "good bye")).
Proof.
  destruct C113_good as (W & TW & NV & D). destruct (D (s2l "hi")) as (D1 & D2 & D3).
  destruct (C113_full_circle ascii_unicode [] [] Normal edit_ty _ edit_p TyString (XString (s2l "hi")) ascii_unicode_ok eq_refl eq_refl TW NV D2 (D3 eq_refl) (C113_a_part _ _)) as (v & a & z & b & E1 & E2 & K).
  exists v, a, z, b. split; [exact E1|]. split; [exact E2|]. eapply (K _ (vstring (s2l "good bye"))); [vm_compute; reflexivity|vm_compute; reflexivity|apply C113_a_part].
Qed.
(** The same for SCALE bytes of the data of C67: another name is written into the text. *)
Definition with_name (s : str) : data := match rust_data with XStruct (f :: _ :: r) => XStruct (f :: (s2l "who", XSome (XString s)) :: r) | d => d end.
Example C113_scale_part s s' : part (serde_of rust_demo) (with_name s) (with_name s') (map LIdx [1; 0]%nat) TyString (XString s) (XString s').
Proof.
  cbn [map]. eapply Pt_child.
  - unfold with_name, rust_data, rust_demo. cbn [serde_of map]. eapply (Ch_struct [_] _ _ _ [_] _); [reflexivity|right; reflexivity].
  - cbn [serde_of]. eapply Pt_child; [apply Ch_some|]. apply Pt_whole.
Qed.
Example C113_scale_applies : exists v a z b, decodes rust_reg xdemo (fun t => t) 0%nat rust_bytes v [] /\ to_text ascii_unicode [] [] Normal v = Some (a ++ z ++ b) /\
  exists v', from_str ascii_unicode (a ++ s2l """you""" ++ b) = (Ok v', []) /\ from_value (serde_of rust_demo) v' = Ok (with_name (s2l "you")).
Proof.
  destruct (C113_scale nat rust_reg xdemo ascii_unicode [] [] Normal 0%nat rust_demo rust_data rust_bytes [1; 0]%nat TyString (XString (s2l "me")) ascii_unicode_ok eq_refl eq_refl
    C68_demo_rt_ok C67_demo_info C67_demo_wf C67_demo_scale C68_demo_sayable (C113_scale_part (s2l "me") (s2l "me"))) as (v & a & z & b & E1 & E2 & K).
  exists v, a, z, b. split; [exact E1|]. split; [exact E2|]. eapply (K _ (vstring (s2l "you"))); [vm_compute; reflexivity|vm_compute; reflexivity|]. exact (C113_scale_part (s2l "me") (s2l "you")).
Qed.
