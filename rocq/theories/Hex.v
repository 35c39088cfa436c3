(** * Hex: model of [/repo/src/string_impls/custom_parsers/hex.rs]. *)
From Verif Require Import Base Value Chars Parse.
Local Open Scope N_scope.

(** [ParseHexError] rendered by [ParseErrorKind::custom] (its [Display]), hex.rs:97-102 *)
Definition invalid_char_msg (c : char) : str := s2l "Invalid hex character: " ++ [c].
Definition wrong_length_msg : str := s2l "Hex string is the wrong length; should be an even length".

(** The [match *b] of hex.rs:53-63. *)
Definition hex_nibble (b : char) : option N :=
  if (65 <=? b) && (b <=? 70) then Some (b - 65 + 10)
  else if (97 <=? b) && (b <=? 102) then Some (b - 97 + 10)
  else if (48 <=? b) && (b <=? 57) then Some (b - 48)
  else None.

(** The loop of hex.rs:41-78 and the checks behind it, hex.rs:80-92.  The code looks at bytes; a byte of a multi-byte char
    is not ASCII alphanumeric, so scanning chars is the same.  [acc] is [composite_values] reversed. *)
Fixpoint hex_scan (t : str) (idx : N) (last_nibble : option N) (acc : list (value unit)) : result (list (value unit) * str) perr :=
  let finish :=
    match last_nibble with
    | Some _ => Err (e_between (ECustom wrong_length_msg) 0 idx)
    | None => Ok (rev acc, t)
    end in
  match t with
  | [] => finish
  | b :: t' =>
      if negb (is_ascii_alnum b) then finish else
      match hex_nibble b with
      | None => Err (e_at (ECustom (invalid_char_msg b)) idx)
      | Some n =>
          match last_nibble with
          | None => hex_scan t' (idx + 1) (Some n) acc
          | Some m => hex_scan t' (idx + 1) None (vu128 (m * 16 + n) :: acc)
          end
      end
  end.

(** [parse_hex], hex.rs:30-93.  The cursor is assigned only on success. *)
Definition parse_hex : cparser := fun s =>
  match strip_prefix (s2l "0x") s with
  | None => (None, s)
  | Some t =>
      match hex_scan t 2 None [] with
      | Ok (vs, rest) => (Some (Ok (unnamed_composite vs)), rest)
      | Err e => (Some (Err e), s)
      end
  end.
