(** * ByteParsers: [parse_hex] and [parse_ss58] again, on the bytes of the text, with everything that can go wrong in Rust made explicit.

    Hex.v and Ss58.v model these functions on characters.  The code works on byte indices, u8 arithmetic and slices, and contains the crate's
    only [unsafe] block.  Here: arithmetic that overflows, an index out of range and a slice off a character boundary panic; and
    [from_utf8_unchecked] of bytes that are not UTF-8 is undefined behaviour.  [usize] indices are natural numbers (a slice has at most
    [isize::MAX] bytes, so adding one does not overflow). *)
From Verif Require Import Base Value Chars Spec_Scale Scale Parse Fmt Hex.
Local Open Scope N_scope.

Inductive ran (A : Type) : Type := Panic | Undefined | Ran (a : A).
Arguments Panic {A}. Arguments Undefined {A}. Arguments Ran {A} a.
Definition rbind {A B} (r : ran A) (k : A -> ran B) : ran B :=
  match r with Panic => Panic | Undefined => Undefined | Ran a => k a end.

(** [u8] arithmetic with overflow checks (debug builds; release builds wrap, which never happens if this never panics). *)
Definition u8_sub (a b : N) : ran N := if b <=? a then Ran (a - b) else Panic.
Definition u8_add (a b : N) : ran N := if a + b <? 256 then Ran (a + b) else Panic.
Definition u8_mul (a b : N) : ran N := if a * b <? 256 then Ran (a * b) else Panic.
(** [usize] subtraction. *)
Definition usize_sub (a b : nat) : ran nat := if (b <=? a)%nat then Ran (a - b)%nat else Panic.
(** [&l[a..b]] and [&l[a..]] of slices. *)
Definition slice {A} (a b : nat) (l : list A) : ran (list A) := if (a <=? b)%nat && (b <=? length l)%nat then Ran (firstn (b - a) (skipn a l)) else Panic.
Definition slice_from {A} (a : nat) (l : list A) : ran (list A) := if (a <=? length l)%nat then Ran (skipn a l) else Panic.
(** [str::is_char_boundary]. *)
Definition is_char_boundary (s : bytes) (i : nat) : bool :=
  match nth_error s i with
  | Some b => (i =? 0)%nat || (b <? 128) || (192 <=? b)
  | None => (i =? length s)%nat
  end.
(** [&s[a..b]] of a [str]. *)
Definition str_slice (a b : nat) (s : bytes) : ran bytes :=
  if (a <=? b)%nat && is_char_boundary s a && is_char_boundary s b then Ran (firstn (b - a) (skipn a s)) else Panic.
(** [core::str::from_utf8_unchecked]. *)
Definition from_utf8_unchecked (b : bytes) : ran bytes := match utf8_decode b with Some _ => Ran b | None => Undefined end.
(** The characters of a [str]. *)
Definition chars (s : bytes) : str := match utf8_decode s with Some cs => cs | None => [] end.

(** ** hex.rs:30-93 *)
(** The [match *b] of hex.rs:53-63; the last arm gives the error. *)
Definition nibble_rs (b : N) : ran (option N) :=
  if (65 <=? b) && (b <=? 70) then rbind (u8_sub b 65) (fun x => rbind (u8_add x 10) (fun y => Ran (Some y)))
  else if (97 <=? b) && (b <=? 102) then rbind (u8_sub b 97) (fun x => rbind (u8_add x 10) (fun y => Ran (Some y)))
  else if (48 <=? b) && (b <=? 57) then rbind (u8_sub b 48) (fun x => Ran (Some x))
  else Ran None.

(** The loop of hex.rs:41-78, left by [break] with its three variables or by [return] with an error.  [fuel] bounds its turns. *)
Fixpoint hex_loop_rs (fuel : nat) (bytes : list N) (idx : nat) (last_nibble : option N) (values : list (value unit))
  : ran (result (nat * option N * list (value unit)) perr) :=
  match fuel with
  | O => Panic
  | S f =>
      match nth_error bytes idx with
      | None => Ran (Ok (idx, last_nibble, values))
      | Some b =>
          if negb (is_ascii_alnum b) then Ran (Ok (idx, last_nibble, values)) else
          rbind (nibble_rs b) (fun hex_nibble =>
            match hex_nibble with
            | None => Ran (Err (e_at (ECustom (invalid_char_msg b)) (N.of_nat idx)))
            | Some hex_nibble =>
                match last_nibble with
                | None => hex_loop_rs f bytes (idx + 1) (Some hex_nibble) values
                | Some n =>
                    rbind (u8_mul n 16) (fun x => rbind (u8_add x hex_nibble) (fun byte =>
                      hex_loop_rs f bytes (idx + 1) None (values ++ [vu128 byte])))
                end
            end)
      end
  end.

(** [parse_hex], hex.rs:30-93: what it returns and the cursor afterwards. *)
Definition parse_hex_rs (s : bytes) : ran (option (result (value unit) perr) * bytes) :=
  match strip_prefix (s2l "0x") s with
  | None => Ran (None, s)
  | Some _ =>
      rbind (hex_loop_rs (S (length s)) s 2 None []) (fun r =>
        match r with
        | Err e => Ran (Some (Err e), s)
        | Ok (idx, last_nibble, values) =>
            match last_nibble with
            | Some _ => Ran (Some (Err (e_between (ECustom wrong_length_msg) 0 (N.of_nat idx))), s)
            | None => rbind (slice_from idx s) (fun rest => rbind (from_utf8_unchecked rest) (fun rest =>
                        Ran (Some (Ok (unnamed_composite values)), rest)))
            end
        end)
  end.

(** ** ss58.rs:30-90 *)
Section Ss58.
  Context (from_base58 : str -> option bytes) (ss58hash : bytes -> bytes).

  (** [str::find] with a predicate on characters: the byte index of the first one it holds of. *)
  Fixpoint find_from (fuel : nat) (p : char -> bool) (s : bytes) (idx : nat) : option nat :=
    match fuel with
    | O => None
    | S f => match utf8_next s with
             | Some (c, r) => if p c then Some idx else find_from f p r (idx + length (utf8_char c))
             | None => None
             end
    end.
  Definition str_find (p : char -> bool) (s : bytes) : option nat := find_from (length s) p s 0.

  (** [parse_ss58_bytes]: the bytes returned and the cursor afterwards. *)
  Definition parse_ss58_rs (s : bytes) : ran (option bytes * bytes) :=
    let end_idx := match str_find (fun c => negb (is_ascii_alnum c)) s with Some i => i | None => length s end in
    rbind (str_slice 0 end_idx s) (fun maybe_ss58 => rbind (str_slice end_idx (length s) s) (fun rest =>
      if match maybe_ss58 with [] => true | _ => false end then Ran (None, s)
      else if str_eqb maybe_ss58 (s2l "true") || str_eqb maybe_ss58 (s2l "false") || forallb is_digit (chars maybe_ss58) then Ran (None, s)
      else if match skip_while is_whitespace (chars rest) with c :: _ => (c =? c_lpar) || (c =? c_lbrace) | [] => false end then Ran (None, s)
      else
        match from_base58 (chars maybe_ss58) with
        | None => Ran (None, s)
        | Some bytes =>
            let prefix_len :=
              match bytes with
              | b :: _ => if b <=? 63 then Some 1%nat else if (64 <=? b) && (b <=? 127) then Some 2%nat else None
              | [] => None
              end in
            match prefix_len with
            | None => Ran (None, s)
            | Some prefix_len =>
                if (length bytes <? prefix_len + 2)%nat then Ran (None, s) else
                rbind (usize_sub (length bytes) 2) (fun checksum_start_idx =>
                rbind (slice 0 checksum_start_idx bytes) (fun body =>
                rbind (slice 0 2 (ss58hash body)) (fun checksum =>
                rbind (slice_from checksum_start_idx bytes) (fun tail =>
                if negb (str_eqb tail checksum) then Ran (None, s)
                else rbind (slice prefix_len checksum_start_idx bytes) (fun out => Ran (Some out, rest))))))
            end
        end)).
End Ss58.

(** ** custom_formatters/hex.rs:44-78 *)
Definition u4_to_hex_rs (n : N) : ran char := match u4_to_hex n with Some c => Ran c | None => Panic end.
Section FormatHex.
  Context {T W : Type} (wr : W -> str -> W * bool).
  (** The loop of hex.rs:64-70. *)
  Fixpoint hex_digits_rs (vals : list (value T)) (w : W) : ran (W * bool) :=
    match vals with
    | [] => Ran (w, true)
    | Val (DPrim (PU128 n)) _ :: vals' =>
        let n := n mod 256 in    (* [as u8] *)
        rbind (u4_to_hex_rs (N.shiftr n 4)) (fun hi => let (w1, ok) := wr w [hi] in if negb ok then Ran (w1, false) else
        rbind (u4_to_hex_rs (N.land n 15)) (fun lo => let (w2, ok) := wr w1 [lo] in if negb ok then Ran (w2, false) else
        hex_digits_rs vals' w2))
    | _ :: vals' => hex_digits_rs vals' w
    end.
  Definition format_hex_rs (v : value T) (w : W) : ran (option bool * W) :=
    match vdef_of v with
    | DComposite (Unnamed vals) =>
        match vals with
        | [] => Ran (None, w)
        | _ => if forallb is_byte_value vals then
                 let (w1, ok) := wr w (s2l "0x") in
                 if negb ok then Ran (Some false, w1) else rbind (hex_digits_rs vals w1) (fun x => Ran (Some (snd x), fst x))
               else Ran (None, w)
        end
    | _ => Ran (None, w)
    end.
End FormatHex.
