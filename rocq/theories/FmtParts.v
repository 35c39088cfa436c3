(** * FmtParts: [Display] of the parts of a value, to_string.rs:365-405. *)
From Verif Require Import Base Value Chars Fmt.

Section Parts.
  Context {T : Type} (U : unicode) (alternate : bool).

  (** [default_builder(..).as_formatter(f)], to_string.rs:365-371, with a [String] behind [f]; the text, or [None] if
      formatting reports an error (and [to_string()] panics). *)
  Definition display_with (a : act (W := str)) : option str :=
    let (f, ok) := a (FS [] (if alternate then Pretty 0 else Normal)) in if ok then Some (writer f) else None.

  Definition in_default : value T -> act := fmt_value U string_wr (plain_cfg (s2l "  ") []).

  (** to_string.rs:379-384; also [Display for Value], 373-377, which forwards here. *)
  Definition display_valuedef (d : vdef (value T)) : option str :=
    display_with (fmt_valuedef U string_wr (plain_cfg (s2l "  ") []) in_default d).
  (** to_string.rs:386-391. *)
  Definition display_composite (c : composite (value T)) : option str :=
    display_with (fmt_composite U string_wr (plain_cfg (s2l "  ") []) in_default c).
  (** to_string.rs:393-398. *)
  Definition display_variant (n : str) (c : composite (value T)) : option str :=
    display_with (fmt_variant U string_wr (plain_cfg (s2l "  ") []) in_default n c).
  (** to_string.rs:400-405. *)
  Definition display_primitive (p : prim) : option str :=
    display_with (fmt_primitive string_wr p).
End Parts.
