(** * Builder: [ToWriterBuilder] (to_string.rs:23-258) and [FromStrBuilder] (from_string.rs:26-66) driven by any history of calls. *)
From Verif Require Import Base Value Chars Fmt Parse.

Section Writer.
  Context {T W : Type}.
  (** The methods that change a builder, to_string.rs:67-241. *)
  Inductive wcall : Type :=
  | CCompact
  | CPretty
  | CLeadingIndent (s : str)
  | CIndentBy (s : str)
  | CFormatContext (f : T -> W -> bool * W)
  | CAddFormatter (f : value T -> W -> option bool * W).

  (** to_string.rs:23-29. *)
  Record wbuilder : Type := WB { wb_style : style; wb_cfg : config T W }.

  (** [ToWriterBuilder::new], to_string.rs:35-43. *)
  Definition wnew : wbuilder := WB Normal {| indent_by := s2l "  "; leading_indent := []; custom_formatters := []; print_context := None |}.

  Definition wstep (b : wbuilder) (c : wcall) : wbuilder :=
    let g := wb_cfg b in
    match c with
    | CCompact => WB Compact g                                                                        (* 67-70 *)
    | CPretty => WB (Pretty 0) g                                                                      (* 103-106 *)
    | CLeadingIndent s => (* 142-145 *) WB (wb_style b) {| indent_by := indent_by g; leading_indent := s; custom_formatters := custom_formatters g; print_context := print_context g |}
    | CIndentBy s => (* 181-184 *) WB (wb_style b) {| indent_by := s; leading_indent := leading_indent g; custom_formatters := custom_formatters g; print_context := print_context g |}
    | CFormatContext f => (* 216-222 *) WB (wb_style b) {| indent_by := indent_by g; leading_indent := leading_indent g; custom_formatters := custom_formatters g; print_context := Some f |}
    | CAddFormatter f => (* 235-241 *) WB (wb_style b) {| indent_by := indent_by g; leading_indent := leading_indent g; custom_formatters := custom_formatters g ++ [f]; print_context := print_context g |}
    end.

  (** [to_writer_custom()] (lib.rs) followed by calls. *)
  Definition to_writer_custom (calls : list wcall) : wbuilder := fold_left wstep calls wnew.
  (** [write], to_string.rs:244-258. *)
  Definition wwrite (U : unicode) (wr : W -> str -> W * bool) (b : wbuilder) (v : value T) (w : W) : W * bool :=
    write_value U wr (wb_cfg b) (wb_style b) v w.
End Writer.
Arguments wcall : clear implicits.
Arguments wbuilder : clear implicits.

(** [FromStrBuilder]: [add_custom_parser] is the only call. *)
Definition from_str_custom (calls : list cparser) : list cparser := fold_left (fun ps p => ps ++ [p]) calls [].
Definition fparse (U : unicode) (b : list cparser) (s : str) : pres (value unit) := parse_custom U b s.
