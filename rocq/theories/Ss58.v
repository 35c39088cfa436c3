(** * Ss58: model of [/repo/src/string_impls/custom_parsers/ss58.rs]. *)
From Verif Require Import Base Value Chars Parse.
Local Open Scope N_scope.

Section Ss58.
  (** [from_base58] of the base58 crate ([None] = error) and [ss58hash] (ss58.rs:92-99, blake2b-512 of a prefix and the
      data) are parameters. *)
  Context (from_base58 : str -> option bytes) (ss58hash : bytes -> bytes).

  Definition str_is (s : str) (lit : string) : bool := str_eqb s (s2l lit).

  (** [parse_ss58_bytes], ss58.rs:30-90.  Returns the bytes and the new cursor; [None] leaves the cursor alone. *)
  Definition parse_ss58_bytes (s : str) : option (bytes * str) :=
    let (maybe_ss58, rest) := take_while is_ascii_alnum s in
    if match maybe_ss58 with [] => true | _ => false end then None
    else if str_is maybe_ss58 "true" || str_is maybe_ss58 "false" || forallb is_digit maybe_ss58 then None
    else if match skip_while is_whitespace rest with c :: _ => (c =? c_lpar) || (c =? c_lbrace) | [] => false end then None
    else
      match from_base58 maybe_ss58 with
      | None => None
      | Some bs =>
          let prefix_len :=
            match bs with
            | b :: _ => if b <=? 63 then Some 1%nat else if (64 <=? b) && (b <=? 127) then Some 2%nat else None
            | [] => None
            end in
          match prefix_len with
          | None => None
          | Some pl =>
              if (length bs <? pl + 2)%nat then None else
              let checksum_start_idx := (length bs - 2)%nat in
              let checksum := firstn 2 (ss58hash (firstn checksum_start_idx bs)) in
              if negb (str_eqb (skipn checksum_start_idx bs) checksum) then None
              else Some (skipn pl (firstn checksum_start_idx bs), rest)
          end
      end.

  (** [parse_ss58], ss58.rs:25-28, and [Value::from_bytes], value_type.rs:104-107 *)
  Definition parse_ss58 : cparser := fun s =>
    match parse_ss58_bytes s with
    | Some (bs, rest) => (Some (Ok (from_bytes bs)), rest)
    | None => (None, s)
    end.
End Ss58.
