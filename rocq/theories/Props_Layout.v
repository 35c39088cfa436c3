(** * Props_Layout: C59 (the exact layout of every style, with contexts and custom formatters) *)
From Verif Require Import Base Value Chars Spec_Grammar Fmt FmtParts Spec_Layout LayoutFacts.
Local Open Scope N_scope.

(** [pure_text U ind lead customs ctx_text st v]: what [to_writer_custom()] with the indents [ind] (per level) and [lead],
    the custom formatters [customs] (in this order) and, if given, the context printer [ctx_text] writes to a [String];
    [None] when [write] reports an error. *)

(** [.compact()]: no optional white space at all; the default style: one space after commas, colons and names and inside
    curly braces.  The indents have no effect. *)
Theorem C59_one_line_styles : forall (T : Type) U ind lead customs ctx_text (v : value T),
  pure_text U ind lead customs ctx_text Compact v = one_line (bare_name U) customs ctx_text [] v /\
  pure_text U ind lead customs ctx_text Normal v = one_line (bare_name U) customs ctx_text (s2l " ") v.
Proof.
  intros T U ind lead customs ctx_text v. rewrite !pure_text_flat.
  split; [apply (flat_one_line U ind lead customs ctx_text Compact)|apply (flat_one_line U ind lead customs ctx_text Normal)]; repeat split.
Qed.
Print Assumptions C59_one_line_styles.

(** [.pretty()]: one item per line; every line but the first is indented by the leading indent and one step per level. *)
Theorem C59_pretty_style : forall (T : Type) U ind lead customs ctx_text (v : value T),
  pure_text U ind lead customs ctx_text (Pretty 0) v =
  match lines (bare_name U) customs ctx_text v with
  | Some ls => Some (put_together lead ind 0 ls)
  | None => None
  end.
Proof. intros. rewrite pure_text_flat. apply flat_pretty. Qed.
Print Assumptions C59_pretty_style.

(** [format!("{v}")] and [format!("{v:#}")]. *)
Theorem C59_display : forall (T : Type) U (v : value T),
  display U false v = one_line (bare_name U) [] None (s2l " ") v /\
  display U true v =
    match lines (bare_name U) [] None v with
    | Some ls => Some (put_together [] (s2l "  ") 0 ls)
    | None => None
    end.
Proof.
  intros T U v. split.
  - exact (proj2 (C59_one_line_styles T U (s2l "  ") [] [] None v)).
  - exact (C59_pretty_style T U (s2l "  ") [] [] None v).
Qed.
Print Assumptions C59_display.

(** A [Composite], [Variant], [Primitive] or [ValueDef] is displayed like the value around it. *)
Theorem C59_display_parts : forall (T : Type) U alternate (ctx : T) n (c : composite (value T)) p d,
  display_composite U alternate c = display U alternate (Val (DComposite c) ctx) /\
  display_variant U alternate n c = display U alternate (Val (DVariant n c) ctx) /\
  display_primitive alternate p = display U alternate (Val (DPrim p) ctx) /\
  display_valuedef U alternate d = display U alternate (Val d ctx).
Proof.
  intros T U alternate ctx n c p d.
  assert (HD : forall d', display_valuedef U alternate d' = display U alternate (Val d' ctx)).
  { intro d'. unfold display, to_text, write_value, display_valuedef, display_with, in_default. cbn [fmt_value]. unfold andthen, fmt_context.
    cbn [print_context plain_cfg ret custom_formatters run_formatters]. set (m := fmt_valuedef _ _ _ _ _ _). destruct m as [f ok]. reflexivity. }
  split; [exact (HD (DComposite c))|]. split; [exact (HD (DVariant n c))|]. split; [exact (HD (DPrim p))|exact (HD d)].
Qed.
Print Assumptions C59_display_parts.
Example C59_parts_example :
  display_variant ascii_unicode false (s2l "X") (Named [(s2l "a b", vu128 1)]) = Some (s2l "X { ""a b"": 1 }") /\
  display_primitive true (PString (s2l "x")) = Some (s2l """x""") /\ display_primitive false (PU256 (repeat 0 32)) = None.
Proof. repeat split; vm_compute; reflexivity. Qed.

Definition layout_sample : value N :=
  Val (DComposite (Named [(s2l "a b", Val (DVariant (s2l "X") (Unnamed [Val (DPrim (PU128 7)) 3; Val (DPrim (PBool true)) 4])) 2);
                          (s2l "c", Val (DComposite (Unnamed [])) 5)])) 1.
Definition show_ctx (n : N) : str := show_N n.
Definition hide_bools (v : value N) : answer :=
  match v with Val (DPrim (PBool _)) _ => Writes (s2l "?") | _ => Declines end.
Example C59_example :
  pure_text ascii_unicode (s2l "..") (s2l "*") [hide_bools] (Some show_ctx) (Pretty 0) layout_sample =
    Some (s2l "<1> {" ++ [c_nl] ++ s2l "*..""a b"": <2> X (" ++ [c_nl] ++ s2l "*....<3> 7," ++ [c_nl] ++ s2l "*....<4> ?" ++ [c_nl] ++
          s2l "*..)," ++ [c_nl] ++ s2l "*..c: <5> ()" ++ [c_nl] ++ s2l "*}") /\
  pure_text ascii_unicode (s2l "..") (s2l "*") [hide_bools] (Some show_ctx) Normal layout_sample =
    Some (s2l "<1> { ""a b"": <2> X (<3> 7, <4> ?), c: <5> () }") /\
  pure_text ascii_unicode (s2l "..") (s2l "*") [] None Compact layout_sample = Some (s2l "{""a b"":X(7,true),c:()}").
Proof. repeat split; vm_compute; reflexivity. Qed.
