(** * Props_EditText: C107 editing SCALE data in its text *)
From Verif Require Import Base Value Spec_Value ValueFacts Chars Parse Spec_Grammar Fmt Spec_Fmt FmtFacts FmtText Registry Spec_Scale Spec_Decode Spec_Encode Spec_Edit Spec_Splice Scale ScaleFacts BitsFacts
  LenFacts Decode DecodeFacts DecodeMore Encode EncodeFacts EncodeTerm EncodeSound EncodeMore EncodeComplete EncodeWrap EncodeText Spec_Same Spec_Writes WritesFacts EditFacts MigrateFacts EditAnyFacts EditTextFacts.
From Verif Require Import ParseNum SpliceFacts PlaceFacts Demo Props_Parse Props_Fmt Props_Decode Props_Encode Props_Doors Props_Writes Props_Cost Props_Edit Props_Splice Props_EditAny.
Local Open Scope N_scope.

Local Notation wf := (all_nodes (fun d => match d with DPrim p => prim_wf p = true | _ => True end)).
Lemma encodes_same {TId A B} (reg : TId -> resolution TId) X (v : value A) (v' : value B) t b : unsigned_form v = unsigned_form v' -> encodes reg X v t b -> encodes reg X v' t b.
Proof. intros E [F H]. exists F. intro out. rewrite <- encode_unsigned, <- E, encode_unsigned. apply H. Qed.

Lemma edit_text {TId C} (reg : TId -> resolution TId) X (ctxf : TId -> C) t t' u v bs r :
  rt_ok reg X -> variant_names_differ reg -> finite_wrappers reg -> no_nested_lists reg ->
  is_bytes bs -> decodes reg X ctxf t bs v r -> (x_len64 X = true -> short v) -> edit reg t t' u u v v ->
  exists p pre old post, swap p u u v v /\ encodes reg X v t (pre ++ old ++ post) /\ encodes reg X u t' old /\
    forall w new vt, wf w -> encodes reg X w t' new -> swap p (unsigned_form u) w (unsigned_form v) vt -> encodes reg X vt t (pre ++ new ++ post).
Proof.
  intros RT ND WF NL HB D SV ED.
  apply C21_decode_iff_encoding in D as (b & -> & E); [|exact HB]. apply enc_at_32 in E; [|exact SV].
  apply (proj1 (strictify reg _ _ _)) in E as (cb & E & _).
  destruct (edit_any reg X _ t t' _ _ _ _ cb RT ND WF NL E ED) as (p & pre & old & post & S & -> & EU & K).
  exists p, pre, old, post. split; [exact S|]. split; [apply (C24_reencode_exact _ _ _ _ ctxf _ _ _ RT E)|]. split; [apply (C24_reencode_exact _ _ _ _ ctxf _ _ _ RT EU)|].
  intros w new vt Hw EW ST. set (w' := map_ctx (fun _ : unit => match v with Val _ c => c end) w).
  assert (UW : unsigned_form w' = unsigned_form w) by apply unsigned_ctx.
  destruct (swap_any _ _ _ _ _ S w') as [v' S']. destruct (K _ _ S') as (_ & K' & _).
  eapply encodes_same; [|apply (K' new); [apply wf_ctx, Hw|eapply encodes_same; [symmetry; exact UW|exact EW]]].
  apply swap_unsigned in S'. rewrite UW in S'. apply swap_unsigned in ST. rewrite !unsigned_idem in ST.
  destruct (C105_replaced _ _ _ _ _ _ S') as (_ & _ & _ & FN). symmetry. exact (FN _ ST).
Qed.

(** ** The place of a part in a displayed text *)
(** Every part of a printable value has its place in the displayed text: there stands the displayed text of the part; and whatever text [y] of whatever value is put there,
    the whole reads back as the value with that part (and no other) replaced.  Signed numbers are read back without their type ([unsigned_form], see C04). *)
Theorem C107_place : forall T U (v u : value T) p t, unicode_ok U -> text_ok (is_ident U) v = true -> display U false v = Some t -> at_path v (map LIdx p) = Some u ->
  exists a x b, t = a ++ x ++ b /\ display U false u = Some x /\
    forall y w, from_str U y = (Ok w, []) -> exists v', swap p (unsigned_form u) w (unsigned_form v) v' /\ from_str U (a ++ y ++ b) = (Ok v', []).
Proof.
  intros T U v u p t UO OK H A. destruct (C105_replaceable _ _ _ _ u A) as [v0 S]. eapply place; eassumption.
Qed.
Print Assumptions C107_place.

(** ** One line *)
(** A value is decoded and printed ([Display]).  The text has a place for every part that stands in a place of the type: there stands the text of the part. Any text [y]
    of any value that can be encoded at the part's type may be put there; the whole is again the text of a value, which encodes to the old bytes with those of the
    part replaced by the new ones. [edit reg t t' u u v v] says that [u] stands in [v] at a place of type [t']. *)
Theorem C107_edit_displayed : forall TId C (reg : TId -> resolution TId) X (ctxf : TId -> C) U t t' u v bs r, unicode_ok U ->
  rt_ok reg X -> variant_names_differ reg -> finite_wrappers reg -> no_nested_lists reg -> speakable (is_ident U) reg ->
  is_bytes bs -> decodes reg X ctxf t bs v r -> (x_len64 X = true -> short v) -> edit reg t t' u u v v ->
  exists a x b pre old post, display U false v = Some (a ++ x ++ b) /\ display U false u = Some x /\
    encodes reg X v t (pre ++ old ++ post) /\ encodes reg X u t' old /\
    forall y w new, forallb is_scalar y = true -> from_str U y = (Ok w, []) -> encodes reg X w t' new ->
      exists v', from_str U (a ++ y ++ b) = (Ok v', []) /\ encodes reg X v' t (pre ++ new ++ post).
Proof.
  intros TId C reg X ctxf U t t' u v bs r UO RT ND WF NL SP HB D SV ED.
  destruct (edit_text reg X ctxf t t' u v bs r RT ND WF NL HB D SV ED) as (p & pre & old & post & S & EV & EU & K).
  assert (OK : text_ok (is_ident U) v = true).
  { destruct SP as [H256 HN]. apply C21_decode_iff_encoding in D as (b & -> & E); [|exact HB]. exact (proj1 (enc_text_ok reg (x_maxbits X) (x_len X) ctxf PU256 false (is_ident U) H256 HN) _ _ _ _ E). }
  destruct (C66_decoded_is_printable TId C reg X ctxf U (s2l "  ") [] Normal t bs v r UO eq_refl eq_refl SP HB D) as (text & P & _).
  destruct (place C U v v u u p text UO OK P S) as (a & x & b & -> & DU & F). exists a, x, b, pre, old, post. split; [exact P|]. split; [exact DU|]. split; [exact EV|]. split; [exact EU|].
  intros y w new Hy Ry EW. destruct (F _ _ Ry) as (vt & ST & RT'). exists vt. split; [exact RT'|]. eapply K; [|exact EW|exact ST].
  apply from_str_iff in Ry; [|exact UO]. eapply read_wf; eassumption.
Qed.
Print Assumptions C107_edit_displayed.

(** ** Any layout *)
(** The same holds of every text of the value, in whatever layout it was written (and of every other text that reads back as a value that reads like [v]); what stands in the place
    of the part is then a text of the part, not necessarily the displayed one. *)
Theorem C107_edit_any_text : forall TId C (reg : TId -> resolution TId) X (ctxf : TId -> C) U t t' u v bs r text, unicode_ok U ->
  rt_ok reg X -> variant_names_differ reg -> finite_wrappers reg -> no_nested_lists reg ->
  is_bytes bs -> decodes reg X ctxf t bs v r -> (x_len64 X = true -> short v) -> edit reg t t' u u v v -> from_str U text = (Ok (unsigned_form v), []) ->
  exists a x b pre old post, text = a ++ x ++ b /\ from_str U x = (Ok (unsigned_form u), []) /\
    encodes reg X v t (pre ++ old ++ post) /\ encodes reg X u t' old /\
    forall y w new, forallb is_scalar y = true -> from_str U y = (Ok w, []) -> encodes reg X w t' new ->
      exists v', from_str U (a ++ y ++ b) = (Ok v', []) /\ encodes reg X v' t (pre ++ new ++ post).
Proof.
  intros TId C reg X ctxf U t t' u v bs r text UO RT ND WF NL HB D SV ED R.
  destruct (edit_text reg X ctxf t t' u v bs r RT ND WF NL HB D SV ED) as (p & pre & old & post & S & EV & EU & K).
  assert (A : at_path (unsigned_form v) (map LIdx p) = Some (unsigned_form u)) by (apply swap_unsigned in S; apply (C105_replaced _ _ _ _ _ _ S)).
  destruct (C105_substitute _ _ _ _ _ UO R A) as (a & x & b & -> & RX & F). exists a, x, b, pre, old, post. split; [reflexivity|]. split; [exact RX|]. split; [exact EV|]. split; [exact EU|].
  intros y w new Hy Ry EW. destruct (F _ _ Ry) as (vt & ST & RT'). exists vt. split; [exact RT'|]. eapply K; [|exact EW|exact ST].
  apply from_str_iff in Ry; [|exact UO]. eapply read_wf; eassumption.
Qed.
Print Assumptions C107_edit_any_text.

(** ** Non-vacuity *)
(** Part [y] of variant B is edited in the text of a struct of an enum and a tuple: a named composite with a number and a char is written where the list stood. *)
Definition text_before : value unit :=
  named_composite [(s2l "e", named_variant (s2l "B") [(s2l "x", vbool true); (s2l "y", unnamed_composite [vu128 9])]); (s2l "t", unnamed_composite [vu128 3; vbool false])].
Lemma demo_text_wraps t u : wraps demo_text t u -> wraps demo_rt t u.
Proof. intro H. inversion H as [? ? A|? ? A]; subst; [apply W_one, demo_text_wraps1, A|apply W_array, demo_text_sub, A]. Qed.
Example C107_demo : rt_ok demo_text xdemo /\ variant_names_differ demo_text /\ finite_wrappers demo_text /\ no_nested_lists demo_text /\ speakable (is_ident ascii_unicode) demo_text /\
  decodes demo_text xdemo (fun _ => tt) 23%nat [5; 1; 4; 9; 3; 0] text_before [] /\ edit demo_text 23%nat 5%nat (unnamed_composite [vu128 9]) (unnamed_composite [vu128 9]) text_before text_before.
Proof.
  split; [exact C66_demo_rt_ok|]. split; [intros t vs R; apply demo_text_sub in R; exact (proj1 (proj2 C102_demo_hypotheses) t vs R)|].
  split; [intro t; induction (C31_demo_wf t) as [t _ IH]; constructor; intros u W; apply IH, demo_text_wraps, W|].
  split; [intros t1 t2 t3 u e H1 H2; apply demo_text_transparent, demo_transparent in H1 as [-> ->]; apply demo_text_transparent, demo_transparent in H2 as [H2 _]; discriminate|].
  split; [exact C66_demo_speakable|]. split; [exists 8%nat; reflexivity|].
  eapply (Edit_struct demo_text 23%nat _ 0%nat); [reflexivity|reflexivity|left; eexists [], _, _; split; [reflexivity|]; split; reflexivity|].
  eapply (Edit_variant demo_text 6%nat _ (s2l "B") 5 _ 1%nat); [reflexivity|right; left; reflexivity|reflexivity| |apply Edit_here].
  left. eexists [_], _, []. split; [reflexivity|]. split; reflexivity.
Qed.
Example C107_example :
  display ascii_unicode false text_before = Some (s2l "{ e: B { x: true, y: " ++ s2l "(9)" ++ s2l " }, t: (3, false) }") /\
  from_str ascii_unicode (s2l "{ p: 1, q: 'A' }") = (Ok (named_composite [(s2l "p", vu128 1); (s2l "q", vchar 65)]), []) /\
  encodes demo_text xdemo (named_composite [(s2l "p", vu128 1); (s2l "q", vchar 65)]) 5%nat [8; 1; 65] /\
  match from_str ascii_unicode (s2l "{ e: B { x: true, y: " ++ s2l "{ p: 1, q: 'A' }" ++ s2l " }, t: (3, false) }") with
  | (Ok v', []) => encode demo_text xdemo 9%nat v' 23%nat [] = (SOk, [5; 1] ++ [8; 1; 65] ++ [3; 0])
  | _ => False
  end.
Proof. split; [vm_compute; reflexivity|]. split; [vm_compute; reflexivity|]. split; [exists 9%nat; intro; reflexivity|]. vm_compute. reflexivity. Qed.
