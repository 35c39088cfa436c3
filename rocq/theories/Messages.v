(** * Messages: model of the [Display] impls of errors and paths. *)
From Verif Require Import Base Value Chars Parse Fmt Registry Spec_Scale Scale Decode Trace.
Local Open Scope N_scope.

(** ** Parse errors, from_string.rs:92-100 and the [#[error(..)]] attributes at 128-218.  [int_msg] is std's text for
    [ParseIntError] (too large or too small). *)
Definition closing_quote_text (n : N) : str :=
  s2l "Expected a closing quote to match the opening quote at position " ++ show_N n.
Definition kind_text (int_msg : str) (k : ekind) : str :=
  match k with
  | EExpectedValue => s2l "Expected a value"
  | EInvalidStart => s2l "The first character in a field name should be alphabetic"
  | EInvalidFieldName =>
      s2l "Field name is not valid (it should begin with an alphabetical char and then consist only of alphanumeric chars)"
  | EMissingSep c => s2l "Missing field separator; expected " ++ [c]
  | ECloser c _ => s2l "Missing closing '" ++ [c] ++ s2l "'"
  | ECharExpected => s2l "Expected a single character"
  | ECharEscape | EStrEscape => s2l "Expected an escape code to follow the '\'"
  | ECharClose n | EStrClose n => closing_quote_text n
  | ENumDigit => s2l "Expected one or more digits"
  | ENumFailed => s2l "Failed to parse digits into an integer: " ++ int_msg
  | EBitsClose n => s2l "Expected a closing bracket ('>') to match the opening one at position " ++ show_N n
  | ECustom m => s2l "Custom error: " ++ m
  | EFuel => []      (* model artefact *)
  end.
Definition perr_display (int_msg : str) (e : perr) : str :=
  match end_loc e with
  | Some l => s2l "Error from char " ++ show_N (start_loc e) ++ s2l " to " ++ show_N l ++ s2l ": " ++ kind_text int_msg (err e)
  | None => s2l "Error at char " ++ show_N (start_loc e) ++ s2l ": " ++ kind_text int_msg (err e)
  end.

(** ** Paths, path.rs:45-57 *)
Definition seg_display (s : seg) : str :=
  s2l "." ++ match s with
             | SIndex n => s2l "[" ++ show_N (N.of_nat n) ++ s2l "]"
             | SField f => f
             | SVariant v => v
             end.
Fixpoint path_display (p : list seg) : str :=
  match p with [] => [] | s :: p' => seg_display s ++ path_display p' end.

(** ** Trace errors, error.rs:93-109 and 124-137, into a [String].  The texts of scale-decode's errors and of a type id
    ([Debug]) are parameters. *)
Section TraceDisplay.
  Context {TId : Type} (U : unicode) (show_cause : cause -> str) (show_id : TId -> str).
  Definition typeid_cfg : config TId str :=
    {| indent_by := s2l "  "; leading_indent := []; custom_formatters := [format_hex string_wr];
       print_context := Some (fun id w => (true, w ++ show_id id)) |}.
  Definition display_value_with_typeid (v : value TId) (w : str) : str * bool :=
    write_value U string_wr typeid_cfg (Pretty 0) v w.
  (** The boolean is [Ok(())].  [to_string()] and [format!] panic when it is [false]. *)
  Definition terr_display (e : terr (value TId)) (w : str) : str * bool :=
    match e with
    | FromDecode c => (w ++ s2l "Error decoding value: " ++ show_cause c, true)
    | FromVisitor at_ v c =>
        display_value_with_typeid v
          (w ++ s2l "Error decoding value at " ++ path_display at_ ++ s2l ": " ++ show_cause c ++
             [c_nl] ++ s2l "Decoded so far:" ++ [c_nl; c_nl])
    end.
  (** [to_string()]: [None] is the panic "a Display implementation returned an error unexpectedly". *)
  Definition terr_to_string (e : terr (value TId)) : option str :=
    let (t, ok) := terr_display e [] in if ok then Some t else None.
End TraceDisplay.
