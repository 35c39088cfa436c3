(** * Parse: model of [/repo/src/string_impls/from_string.rs].

    A [StrTokens] over the input [s0] is the remaining text [rem : str] (a suffix of [s0]) together with the fixed
    length in bytes [total] of [s0]; [t.offset()] is [total - blen rem].  A parser takes and returns the remaining text,
    also on failure, because a failure may leave the cursor advanced.  yap:
    - [t.token(c)] consumes the next char iff it equals [c];  [t.tokens(cs)] consumes all of [cs] or nothing;
    - [skip_while]/[take_while] consume the longest run satisfying the predicate;
    - [one_of!] tries the alternatives in order, restoring the location after each [None];
    - [sep_by_err] see [sep_by]. *)
From Verif Require Import Base Value Chars.
Local Open Scope N_scope.

(** ** Errors: from_string.rs:70-218 *)
Inductive ekind : Type :=
| EExpectedValue                            (* ParseErrorKind::ExpectedValue *)
| EInvalidStart                             (* ParseComplexError::InvalidStartingCharacterInIdent *)
| EInvalidFieldName                         (* ParseComplexError::InvalidFieldName *)
| EMissingSep (c : char)                    (* ParseComplexError::MissingFieldSeparator *)
| ECloser (c : char) (start : N)            (* ParseComplexError::ExpectedCloserToMatch *)
| ECharExpected                             (* ParseCharError::ExpectedValidCharacter *)
| ECharEscape                               (* ParseCharError::ExpectedValidEscapeCode *)
| ECharClose (start : N)                    (* ParseCharError::ExpectedClosingQuoteToMatch *)
| EStrClose (start : N)                     (* ParseStringError::ExpectedClosingQuoteToMatch *)
| EStrEscape                                (* ParseStringError::ExpectedValidEscapeCode *)
| ENumDigit                                 (* ParseNumberError::ExpectedDigit *)
| ENumFailed                                (* ParseNumberError::ParsingFailed (overflow) *)
| EBitsClose (start : N)                    (* ParseBitSequenceError::ExpectedClosingBracketToMatch *)
| ECustom (msg : str)                       (* ParseErrorKind::Custom *)
| EFuel.                                    (* model artefact: recursion fuel exhausted; shown unreachable (C08) *)

(** [ParseError], from_string.rs:70-78. *)
Record perr : Type := PErr { start_loc : N; end_loc : option N; err : ekind }.

(** [at]/[at_one]/[between], from_string.rs:104-123. *)
Definition e_at (k : ekind) (loc : N) : perr := PErr loc None k.
Definition e_between (k : ekind) (a b : N) : perr := PErr a (Some b) k.
Definition e_at_one (k : ekind) (loc : N) : perr := PErr loc (Some (loc + 1)) k.

Definition fuel_err : perr := PErr 0 None EFuel.

(** Parsers returning [Result<A, ParseError>] and [Result<A, Option<ParseError>]. *)
Definition pres (A : Type) : Type := (result A perr * str)%type.
Definition ores (A : Type) : Type := (result A (option perr) * str)%type.

(** ** yap primitives *)
Definition token (c : char) (t : str) : bool * str :=
  match t with
  | x :: t' => if x =? c then (true, t') else (false, t)
  | [] => (false, t)
  end.

Fixpoint strip_prefix (p t : str) : option str :=
  match p with
  | [] => Some t
  | c :: p' => match t with
               | x :: t' => if x =? c then strip_prefix p' t' else None
               | [] => None
               end
  end.

Definition tokens (p t : str) : bool * str :=
  match strip_prefix p t with Some t' => (true, t') | None => (false, t) end.

Fixpoint take_while (p : char -> bool) (t : str) : str * str :=
  match t with
  | [] => ([], [])
  | c :: t' => if p c then let (a, b) := take_while p t' in (c :: a, b) else ([], t)
  end.

Definition skip_while (p : char -> bool) (t : str) : str := snd (take_while p t).

(** [yap::one_of!] over alternatives returning [Option<Result<A, ParseError>>] (after [transpose_err],
    from_string.rs:601-607). *)
Definition alt (A : Type) : Type := str -> ores A.

Fixpoint one_of {A} (alts : list (alt A)) (t : str) : option (result A perr) * str :=
  match alts with
  | [] => (None, t)
  | a :: alts' =>
      match a t with
      | (Ok v, t') => (Some (Ok v), t')
      | (Err (Some e), t') => (Some (Err e), t')
      | (Err None, _) => one_of alts' t
      end
  end.

Definition omap {A B} (f : A -> B) (a : alt A) : alt B := fun t => let (r, t') := a t in (rmap f r, t').

Section Parser.
  Context (U : unicode) (total : N).

  Definition offset (t : str) : N := total - blen t.

  (** from_string.rs:588-590 *)
  Definition skip_whitespace (t : str) : str := skip_while is_whitespace t.

  (** from_string.rs:593-598 *)
  Definition skip_spaced_separator (s : char) (t : str) : bool * str :=
    let t1 := skip_whitespace t in
    let (is_sep, t2) := token s t1 in
    (is_sep, skip_whitespace t2).

  (** from_string.rs:386-394 *)
  Definition parse_bool : alt bool := fun t =>
    match tokens (s2l "true") t with
    | (true, t') => (Ok true, t')
    | (false, _) =>
        match tokens (s2l "false") t with
        | (true, t') => (Ok false, t')
        | (false, _) => (Err None, t)
        end
    end.

  (** from_string.rs:397-426 *)
  Definition parse_char : alt char := fun t =>
    let start := offset t in
    let (ok, t1) := token c_squote t in
    if negb ok then (Err None, t1) else
    match t1 with
    | [] => (Err (Some (e_at_one ECharExpected (offset t1))), t1)
    | c :: t2 =>
        let fin (c : char) (t3 : str) : ores char :=
          let (ok, t4) := token c_squote t3 in
          if negb ok then (Err (Some (e_at_one (ECharClose start) (offset t4))), t4) else (Ok c, t4)
        in
        if c =? c_bslash then
          match t2 with
          | [] => (Err (Some (e_at_one ECharEscape (offset t2))), t2)
          | e :: t3 =>
              match from_escape_code e with
              | None => (Err (Some (e_at_one ECharEscape (offset t3))), t3)
              | Some c' => fin c' t3
              end
          end
        else fin c t2
    end.

  (** The loop of from_string.rs:487-524.  [acc] is [out] reversed; recursion is on the text itself. *)
  Fixpoint string_loop (start : N) (t : str) (acc : str) (next_is_escaped : bool) {struct t} : ores str :=
    match t with
    | [] => (Err (Some (e_at_one (EStrClose start) (offset t))), t)
    | c :: t' =>
        if (c =? c_bslash) && negb next_is_escaped then string_loop start t' acc true
        else if next_is_escaped then
          match from_escape_code c with
          | Some c' => string_loop start t' (c' :: acc) false
          | None => (Err (Some (e_between EStrEscape (offset t) (offset t + 1))), t')
          end
        else if c =? c_dquote then (Ok (rev acc), t')
        else string_loop start t' (c :: acc) false
    end.

  (** from_string.rs:479-527 *)
  Definition parse_string : alt str := fun t =>
    let start := offset t in
    let (ok, t1) := token c_dquote t in
    if negb ok then (Err None, t1) else string_loop start t1 [] false.

  (** Number of digits already seen decides whether [_] is accepted, from_string.rs:438-448. *)
  Fixpoint take_digits (t : str) (seen_n : bool) : str * (bool * str) :=
    match t with
    | [] => ([], (seen_n, []))
    | c :: t' =>
        if is_digit c then let (a, b) := take_digits t' true in (c :: a, b)
        else if seen_n && (c =? c_under) then take_digits t' seen_n   (* filtered out, line 449 *)
        else ([], (seen_n, t))
    end.

  Definition digit_val (c : char) : N := c - 48.
  Definition digits_value (ds : str) : N := fold_left (fun a d => a * 10 + digit_val d) ds 0.

  (** std [str::parse::<u128>] on ASCII digits, and [parse::<i128>] on ['-'] followed by digits. *)
  Definition parse_u128 (ds : str) : option N :=
    let n := digits_value ds in if n <? 2 ^ 128 then Some n else None.
  Definition parse_neg_i128 (ds : str) : option Z :=
    let n := digits_value ds in if n <=? 2 ^ 127 then Some (- Z.of_N n)%Z else None.

  (** from_string.rs:429-476 *)
  Definition parse_number : alt prim := fun t =>
    let start_loc := offset t in
    let (plus, t1) := token c_plus t in
    let '(is_positive, t2) :=
      if plus then (true, t1)
      else let (minus, t1') := token c_minus t1 in (negb minus, t1') in
    let '(digits, (seen_n, t3)) := take_digits t2 false in
    let end_loc := offset t3 in
    if end_loc =? start_loc then (Err None, t3)
    else if negb seen_n then (Err (Some (e_between ENumDigit end_loc (end_loc + 1))), t3)
    else if is_positive then
      match parse_u128 digits with
      | Some n => (Ok (PU128 n), t3)
      | None => (Err (Some (e_between ENumFailed start_loc end_loc)), t3)
      end
    else
      match parse_neg_i128 digits with
      | Some n => (Ok (PI128 n), t3)
      | None => (Err (Some (e_between ENumFailed start_loc end_loc)), t3)
      end.

  (** from_string.rs:366-383 *)
  Definition parse_bit_sequence : alt (list bool) := fun t =>
    let start := offset t in
    let (ok, t1) := token c_lt t in
    if negb ok then (Err None, t1) else
    let (bits, t2) := take_while (fun c => (c =? c_0) || (c =? c_1)) t1 in
    let (ok, t3) := token c_gt t2 in
    if negb ok then (Err (Some (e_between (EBitsClose start) (offset t3) (offset t3 + 1))), t3)
    else (Ok (map (fun c => c =? c_1) bits), t3).

  (** from_string.rs:575-585.  [t.slice(start, end)] is the concatenation of the two skipped runs. *)
  Definition parse_ident : str -> pres str := fun t =>
    let (a, t1) := take_while (is_alphabetic U) t in
    match a with
    | [] => (Err (e_at_one EInvalidStart (offset t)), t1)
    | _ => let (b, t2) := take_while (fun c => is_alphanumeric U c || (c =? c_under)) t1 in
           (Ok (a ++ b), t2)
    end.

  (** A parser that always answers, as an alternative ([Some(parse_ident(t))]). *)
  Definition always {A} (p : str -> pres A) : alt A := fun t =>
    match p t with (Ok a, t') => (Ok a, t') | (Err e, t') => (Err (Some e), t') end.
  (** [.ok()]: a failure becomes "not applicable". *)
  Definition ok_of {A} (p : str -> pres A) : alt A := fun t =>
    match p t with (Ok a, t') => (Ok a, t') | (Err e, t') => (Err None, t') end.
  Definition ok_of_o {A} (p : alt A) : alt A := fun t =>
    match p t with (Ok a, t') => (Ok a, t') | (Err e, t') => (Err None, t') end.

  (** from_string.rs:543-554 *)
  Definition parse_field_name : str -> pres str := fun t =>
    match one_of [parse_string; always parse_ident] t with
    | (Some (Ok n), t') => (Ok n, t')
    | (Some (Err e), t') => (Err e, t')
    | (None, t') => (Err (e_at EInvalidFieldName (offset t')), t')
    end.

  (** from_string.rs:560-572 *)
  Definition parse_i_string : alt str := fun t =>
    match t with
    | [] => (Err None, t)
    | c :: t' => if negb (c =? c_v) then (Err None, t') else ok_of_o parse_string t'
    end.

  Definition parse_optional_variant_ident : str -> option (result str perr) * str :=
    one_of [parse_i_string; ok_of parse_ident].

  (** ** Recursive part.  [pv] stands for the recursive call to [parse_value]. *)
  Section Rec.
    Context (pv : str -> pres (value unit)).

    (** from_string.rs:530-540 *)
    Definition parse_field_name_and_value : str -> pres (str * value unit) := fun t =>
      match parse_field_name t with
      | (Err e, t1) => (Err e, t1)
      | (Ok name, t1) =>
          let (ok, t2) := skip_spaced_separator c_colon t1 in
          if negb ok then (Err (e_at_one (EMissingSep c_colon) (offset t2)), t2) else
          match pv t2 with
          | (Err e, t3) => (Err e, t3)
          | (Ok v, t3) => (Ok (name, v), t3)
          end
      end.

    (** yap [sep_by_err(item, sep).collect::<Result<_,_>>()]: [item (sep item)*].  When the separator does not match
        the location is put back to before it and iteration ends; when an item fails the location is put back to
        before the separator that preceded it (to the start for the first item) and the error is yielded.
        The loop consumes at least the separator each time round, [fuel] only bounds it. *)
    Fixpoint sep_rest {A} (fuel : nat) (item : str -> pres A) (t : str) (acc : list A) : pres (list A) :=
      match fuel with
      | O => (Err fuel_err, t)
      | S k =>
          let (ok, t1) := skip_spaced_separator c_comma t in
          if negb ok then (Ok (rev acc), t) else
          match item t1 with
          | (Err e, _) => (Err e, t)
          | (Ok a, t2) => sep_rest k item t2 (a :: acc)
          end
      end.

    Definition sep_by {A} (fuel : nat) (item : str -> pres A) (t : str) : pres (list A) :=
      match item t with
      | (Err e, _) => (Err e, t)
      | (Ok a, t1) => sep_rest fuel item t1 [a]
      end.

    (** Common part of the two composite parsers. *)
    Definition parse_delimited {A} (op cl : char) (fuel : nat) (item : str -> pres A) : alt (list A) := fun t =>
      let start := offset t in
      let (ok, t1) := token op t in
      if negb ok then (Err None, t1) else
      let t2 := skip_whitespace t1 in
      let (ok, t3) := token cl t2 in
      if ok then (Ok [], t3) else
      match sep_by fuel item t3 with
      | (Err e, t4) => (Err (Some e), t4)
      | (Ok l, t4) =>
          let t5 := skip_whitespace t4 in
          let (ok, t6) := token cl t5 in
          if negb ok then (Err (Some (e_at_one (ECloser cl start) (offset t6))), t6)
          else (Ok l, t6)
      end.

    (** from_string.rs:285-312 *)
    Definition parse_named_composite (fuel : nat) : alt (composite (value unit)) :=
      omap Named (parse_delimited c_lbrace c_rbrace fuel parse_field_name_and_value).

    (** from_string.rs:315-339 *)
    Definition parse_unnamed_composite (fuel : nat) : alt (composite (value unit)) :=
      omap Unnamed (parse_delimited c_lpar c_rpar fuel pv).

    (** from_string.rs:342-363 *)
    Definition parse_variant (fuel : nat) : alt (value unit) := fun t =>
      match parse_optional_variant_ident t with
      | (Some (Ok ident), t1) =>
          let t2 := skip_whitespace t1 in
          match one_of [parse_named_composite fuel; parse_unnamed_composite fuel] t2 with
          | (Some (Ok vs), t3) => (Ok (variant ident vs), t3)
          | (Some (Err e), t3) => (Err (Some e), t3)
          | (None, t3) => (Err None, t3)
          end
      | (_, t1) => (Err None, t1)
      end.

    (** from_string.rs:259-277 *)
    Definition parse_builtin (fuel : nat) : str -> pres (value unit) := fun t =>
      match one_of [ omap vbool parse_bool;
                     omap vchar parse_char;
                     omap vstring parse_string;
                     omap primitive parse_number;
                     omap (fun c => without_context (DComposite c)) (parse_named_composite fuel);
                     omap (fun c => without_context (DComposite c)) (parse_unnamed_composite fuel);
                     omap bit_sequence parse_bit_sequence;
                     parse_variant fuel ] t with
      | (Some (Ok v), t') => (Ok v, t')
      | (Some (Err e), t') => (Err e, t')
      | (None, t') => (Err (e_at EExpectedValue (offset t')), t')
      end.
  End Rec.

  (** ** Custom parsers, from_string.rs:226-254.
      A custom parser [Fn(&mut &str) -> Option<Result<Value, ParseError>>] maps the cursor text to its answer and the
      new cursor text.  The same cursor is handed to all the custom parsers. *)
  Definition cparser : Type := str -> option (result (value unit) perr) * str.

  Fixpoint run_customs (cs : list cparser) (cursor : str) : option (result (value unit) perr * str) :=
    match cs with
    | [] => None
    | p :: cs' =>
        match p cursor with
        | (Some r, cur) => Some (r, cur)
        | (None, cur) => run_customs cs' cur
        end
    end.

  (** [for _ in cursor.len()..s.len() { t.next(); }], from_string.rs:238-240: one [next] per *byte* consumed. *)
  Definition wind_forward (s cursor : str) : str := skipn (N.to_nat (blen s - blen cursor)) s.

  Definition shift_err (start_offset : N) (e : perr) : perr :=
    PErr (start_offset + start_loc e) (option_map (fun l => start_offset + l) (end_loc e)) (err e).

  (** from_string.rs:222-277 *)
  Fixpoint parse_value (customs : list cparser) (fuel : nat) (t : str) {struct fuel} : pres (value unit) :=
    match fuel with
    | O => (Err fuel_err, t)
    | S k =>
        match run_customs customs t with
        | Some (Ok v, cursor) => (Ok v, wind_forward t cursor)
        | Some (Err e, _) => (Err (shift_err (offset t) e), t)
        | None => parse_builtin (parse_value customs k) k t
        end
    end.
End Parser.

(** [FromStrBuilder::parse], from_string.rs:60-65.  The fuel is an upper bound of the nesting depth (C08). *)
Definition parse_custom (U : unicode) (customs : list cparser) (s : str) : pres (value unit) :=
  parse_value U (blen s) customs (S (length s)) s.

(** [stringify::from_str], lib.rs:365-367: no custom parsers. *)
Definition from_str (U : unicode) (s : str) : pres (value unit) := parse_custom U [] s.
