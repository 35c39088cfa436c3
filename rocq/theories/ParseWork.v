(** * ParseWork: the parser of /repo/src/string_impls/from_string.rs once more, with a count of its work.

    Every function is the one of Parse.v (same lines of from_string.rs) and returns in addition
    - [reads]: how many times a character is asked for ([next] of the token stream, by the parser itself or inside yap's [token], [tokens],
      [take_while], [skip_while] - these read one character more than they take - and [slice]); a character that is read again after the
      location was put back counts again; each call of a custom parser counts as [w];
    - [deep]: how many calls of [parse_value] are active at the same time at most (the depth of Rust's recursion).
    That the results are those of Parse.v is proved (Props_Work, C78).  [offset], [location], [set_location] and [remaining] read nothing.
    What [str::parse] and the pushes to [String]/[Vec] do with characters already read is not counted. *)
From Verif Require Import Base Value Chars Parse.
Local Open Scope N_scope.

Record work : Type := Work { reads : nat; deep : nat }.
Definition also (a b : work) : work := Work (reads a + reads b) (Nat.max (deep a) (deep b)).
Definition read (n : nat) : work := Work n 0.
(** A call of [parse_value]. *)
Definition inner_call (a : work) : work := Work (reads a) (S (deep a)).
Definition counted (A : Type) : Type := (A * work)%type.
Definition after {A} (a : work) (m : counted A) : counted A := (fst m, also a (snd m)).

(** yap: [token], [tokens], [take_while]/[skip_while]. *)
Definition w_token (c : char) (t : str) : counted (bool * str) := (token c t, read 1).
Fixpoint prefix_reads (p t : str) : nat :=
  match p with
  | [] => 0%nat
  | c :: p' => match t with
               | x :: t' => if x =? c then S (prefix_reads p' t') else 1%nat
               | [] => 1%nat
               end
  end.
Definition w_tokens (p t : str) : counted (bool * str) := (tokens p t, read (prefix_reads p t)).
Definition w_take_while (p : char -> bool) (t : str) : counted (str * str) := (take_while p t, read (S (length (fst (take_while p t))))).
Definition w_skip_while (p : char -> bool) (t : str) : counted str := let (r, n) := w_take_while p t in (snd r, n).

Definition walt (A : Type) : Type := str -> counted (ores A).
(** [one_of!]: alternatives that do not apply have been paid for. *)
Fixpoint w_one_of {A} (alts : list (walt A)) (t : str) : counted (option (result A perr) * str) :=
  match alts with
  | [] => ((None, t), read 0)
  | a :: alts' =>
      let (r, n) := a t in
      match r with
      | (Ok v, t') => ((Some (Ok v), t'), n)
      | (Err (Some e), t') => ((Some (Err e), t'), n)
      | (Err None, _) => after n (w_one_of alts' t)
      end
  end.
Definition w_omap {A B} (f : A -> B) (a : walt A) : walt B := fun t => let (r, n) := a t in ((rmap f (fst r), snd r), n).

Section Parser.
  Context (U : unicode) (total : N).

  (** from_string.rs:588-590 *)
  Definition w_skip_whitespace (t : str) : counted str := w_skip_while is_whitespace t.

  (** from_string.rs:593-598 *)
  Definition w_skip_spaced_separator (s : char) (t : str) : counted (bool * str) :=
    let (t1, n1) := w_skip_whitespace t in
    let '((is_sep, t2), n2) := w_token s t1 in
    let (t3, n3) := w_skip_whitespace t2 in
    ((is_sep, t3), also n1 (also n2 n3)).

  (** from_string.rs:386-394 *)
  Definition w_parse_bool : walt bool := fun t =>
    let '((ok, t'), n) := w_tokens (s2l "true") t in
    if ok then ((Ok true, t'), n)
    else let '((ok, t'), n') := w_tokens (s2l "false") t in
         if ok then ((Ok false, t'), also n n') else ((Err None, t), also n n').

  (** from_string.rs:397-426 *)
  Definition w_parse_char : walt char := fun t =>
    let start := offset total t in
    let '((ok, t1), n1) := w_token c_squote t in
    if negb ok then ((Err None, t1), n1) else
    after (also n1 (read 1))
      (match t1 with
       | [] => ((Err (Some (e_at_one ECharExpected (offset total t1))), t1), read 0)
       | c :: t2 =>
           let fin (c : char) (t3 : str) : counted (ores char) :=
             let '((ok, t4), n4) := w_token c_squote t3 in
             ((if negb ok then (Err (Some (e_at_one (ECharClose start) (offset total t4))), t4) else (Ok c, t4)), n4)
           in
           if c =? c_bslash then
             after (read 1)
               (match t2 with
                | [] => ((Err (Some (e_at_one ECharEscape (offset total t2))), t2), read 0)
                | e :: t3 =>
                    match from_escape_code e with
                    | None => ((Err (Some (e_at_one ECharEscape (offset total t3))), t3), read 0)
                    | Some c' => fin c' t3
                    end
                end)
           else fin c t2
       end).

  (** from_string.rs:487-524 *)
  Fixpoint w_string_loop (start : N) (t : str) (acc : str) (next_is_escaped : bool) {struct t} : counted (ores str) :=
    after (read 1)
      (match t with
       | [] => ((Err (Some (e_at_one (EStrClose start) (offset total t))), t), read 0)
       | c :: t' =>
           if (c =? c_bslash) && negb next_is_escaped then w_string_loop start t' acc true
           else if next_is_escaped then
             match from_escape_code c with
             | Some c' => w_string_loop start t' (c' :: acc) false
             | None => ((Err (Some (e_between EStrEscape (offset total t) (offset total t + 1))), t'), read 0)
             end
           else if c =? c_dquote then ((Ok (rev acc), t'), read 0)
           else w_string_loop start t' (c :: acc) false
       end).

  (** from_string.rs:479-527 *)
  Definition w_parse_string : walt str := fun t =>
    let start := offset total t in
    let '((ok, t1), n1) := w_token c_dquote t in
    if negb ok then ((Err None, t1), n1) else after n1 (w_string_loop start t1 [] false).

  (** The [take_while] of from_string.rs:438-448. *)
  Fixpoint digit_reads (t : str) (seen_n : bool) : nat :=
    S (match t with
       | [] => 0%nat
       | c :: t' => if is_digit c then digit_reads t' true else if seen_n && (c =? c_under) then digit_reads t' seen_n else 0%nat
       end).

  (** from_string.rs:429-476 *)
  Definition w_parse_number : walt prim := fun t =>
    let start_loc := offset total t in
    let '((plus, t1), n1) := w_token c_plus t in
    let '((is_positive, t2), n2) :=
      if plus then ((true, t1), read 0)
      else let '((minus, t1'), n) := w_token c_minus t1 in ((negb minus, t1'), n) in
    let '(digits, (seen_n, t3)) := take_digits t2 false in
    let end_loc := offset total t3 in
    ((if end_loc =? start_loc then (Err None, t3)
      else if negb seen_n then (Err (Some (e_between ENumDigit end_loc (end_loc + 1))), t3)
      else if is_positive then
        match parse_u128 digits with
        | Some n => (Ok (PU128 n), t3)
        | None => (Err (Some (e_between ENumFailed start_loc end_loc)), t3)
        end
      else
        match parse_neg_i128 digits with
        | Some n => (Ok (PI128 n), t3)
        | None => (Err (Some (e_between ENumFailed start_loc end_loc)), t3)
        end),
     also n1 (also n2 (read (digit_reads t2 false)))).

  (** from_string.rs:366-383 *)
  Definition w_parse_bit_sequence : walt (list bool) := fun t =>
    let start := offset total t in
    let '((ok, t1), n1) := w_token c_lt t in
    if negb ok then ((Err None, t1), n1) else
    let '((bits, t2), n2) := w_take_while (fun c => (c =? c_0) || (c =? c_1)) t1 in
    let '((ok, t3), n3) := w_token c_gt t2 in
    ((if negb ok then (Err (Some (e_between (EBitsClose start) (offset total t3) (offset total t3 + 1))), t3)
      else (Ok (map (fun c => c =? c_1) bits), t3)), also n1 (also n2 n3)).

  (** from_string.rs:575-585; [slice] reads the identifier again. *)
  Definition w_parse_ident : str -> counted (pres str) := fun t =>
    let '((a, t1), n1) := w_take_while (is_alphabetic U) t in
    match a with
    | [] => ((Err (e_at_one EInvalidStart (offset total t)), t1), n1)
    | _ => let '((b, t2), n2) := w_take_while (fun c => is_alphanumeric U c || (c =? c_under)) t1 in
           ((Ok (a ++ b), t2), also n1 (also n2 (read (length (a ++ b)))))
    end.

  Definition w_always {A} (p : str -> counted (pres A)) : walt A := fun t =>
    let (r, n) := p t in (match r with (Ok a, t') => (Ok a, t') | (Err e, t') => (Err (Some e), t') end, n).
  Definition w_ok_of {A} (p : str -> counted (pres A)) : walt A := fun t =>
    let (r, n) := p t in (match r with (Ok a, t') => (Ok a, t') | (Err e, t') => (Err None, t') end, n).
  Definition w_ok_of_o {A} (p : walt A) : walt A := fun t =>
    let (r, n) := p t in (match r with (Ok a, t') => (Ok a, t') | (Err e, t') => (Err None, t') end, n).

  (** from_string.rs:543-554 *)
  Definition w_parse_field_name : str -> counted (pres str) := fun t =>
    let (r, n) := w_one_of [w_parse_string; w_always w_parse_ident] t in
    (match r with
     | (Some (Ok n), t') => (Ok n, t')
     | (Some (Err e), t') => (Err e, t')
     | (None, t') => (Err (e_at EInvalidFieldName (offset total t')), t')
     end, n).

  (** from_string.rs:560-572 *)
  Definition w_parse_i_string : walt str := fun t =>
    after (read 1)
      (match t with
       | [] => ((Err None, t), read 0)
       | c :: t' => if negb (c =? c_v) then ((Err None, t'), read 0) else w_ok_of_o w_parse_string t'
       end).
  Definition w_parse_optional_variant_ident : str -> counted (option (result str perr) * str) :=
    w_one_of [w_parse_i_string; w_ok_of w_parse_ident].

  Section Rec.
    Context (pv : str -> counted (pres (value unit))).

    (** from_string.rs:530-540 *)
    Definition w_parse_field_name_and_value : str -> counted (pres (str * value unit)) := fun t =>
      let (r1, n1) := w_parse_field_name t in
      match r1 with
      | (Err e, t1) => ((Err e, t1), n1)
      | (Ok name, t1) =>
          let '((ok, t2), n2) := w_skip_spaced_separator c_colon t1 in
          if negb ok then ((Err (e_at_one (EMissingSep c_colon) (offset total t2)), t2), also n1 n2) else
          let (r3, n3) := pv t2 in
          (match r3 with
           | (Err e, t3) => (Err e, t3)
           | (Ok v, t3) => (Ok (name, v), t3)
           end, also n1 (also n2 n3))
      end.

    (** yap [sep_by_err(item, sep).collect()] *)
    Fixpoint w_sep_rest {A} (fuel : nat) (item : str -> counted (pres A)) (t : str) (acc : list A) : counted (pres (list A)) :=
      match fuel with
      | O => ((Err fuel_err, t), read 0)
      | S k =>
          let '((ok, t1), n1) := w_skip_spaced_separator c_comma t in
          if negb ok then ((Ok (rev acc), t), n1) else
          let (r2, n2) := item t1 in
          match r2 with
          | (Err e, _) => ((Err e, t), also n1 n2)
          | (Ok a, t2) => after (also n1 n2) (w_sep_rest k item t2 (a :: acc))
          end
      end.
    Definition w_sep_by {A} (fuel : nat) (item : str -> counted (pres A)) (t : str) : counted (pres (list A)) :=
      let (r, n) := item t in
      match r with
      | (Err e, _) => ((Err e, t), n)
      | (Ok a, t1) => after n (w_sep_rest fuel item t1 [a])
      end.

    (** from_string.rs:285-312 and 315-339 *)
    Definition w_parse_delimited {A} (op cl : char) (fuel : nat) (item : str -> counted (pres A)) : walt (list A) := fun t =>
      let start := offset total t in
      let '((ok, t1), n1) := w_token op t in
      if negb ok then ((Err None, t1), n1) else
      let (t2, n2) := w_skip_whitespace t1 in
      let '((ok, t3), n3) := w_token cl t2 in
      if ok then ((Ok [], t3), also n1 (also n2 n3)) else
      after (also n1 (also n2 n3))
        (let (r4, n4) := w_sep_by fuel item t3 in
         match r4 with
         | (Err e, t4) => ((Err (Some e), t4), n4)
         | (Ok l, t4) =>
             let (t5, n5) := w_skip_whitespace t4 in
             let '((ok, t6), n6) := w_token cl t5 in
             ((if negb ok then (Err (Some (e_at_one (ECloser cl start) (offset total t6))), t6) else (Ok l, t6)),
              also n4 (also n5 n6))
         end).
    Definition w_parse_named_composite (fuel : nat) : walt (composite (value unit)) :=
      w_omap Named (w_parse_delimited c_lbrace c_rbrace fuel w_parse_field_name_and_value).
    Definition w_parse_unnamed_composite (fuel : nat) : walt (composite (value unit)) :=
      w_omap Unnamed (w_parse_delimited c_lpar c_rpar fuel pv).

    (** from_string.rs:342-363 *)
    Definition w_parse_variant (fuel : nat) : walt (value unit) := fun t =>
      let (r1, n1) := w_parse_optional_variant_ident t in
      match r1 with
      | (Some (Ok ident), t1) =>
          let (t2, n2) := w_skip_whitespace t1 in
          let (r3, n3) := w_one_of [w_parse_named_composite fuel; w_parse_unnamed_composite fuel] t2 in
          (match r3 with
           | (Some (Ok vs), t3) => (Ok (variant ident vs), t3)
           | (Some (Err e), t3) => (Err (Some e), t3)
           | (None, t3) => (Err None, t3)
           end, also n1 (also n2 n3))
      | (_, t1) => ((Err None, t1), n1)
      end.

    (** from_string.rs:259-277 *)
    Definition w_parse_builtin (fuel : nat) : str -> counted (pres (value unit)) := fun t =>
      let (r, n) :=
        w_one_of [ w_omap vbool w_parse_bool;
                   w_omap vchar w_parse_char;
                   w_omap vstring w_parse_string;
                   w_omap primitive w_parse_number;
                   w_omap (fun c => without_context (DComposite c)) (w_parse_named_composite fuel);
                   w_omap (fun c => without_context (DComposite c)) (w_parse_unnamed_composite fuel);
                   w_omap bit_sequence w_parse_bit_sequence;
                   w_parse_variant fuel ] t in
      (match r with
       | (Some (Ok v), t') => (Ok v, t')
       | (Some (Err e), t') => (Err e, t')
       | (None, t') => (Err (e_at EExpectedValue (offset total t')), t')
       end, n).
  End Rec.

  (** from_string.rs:234-254: the custom parsers are called one after the other until one answers. *)
  Context (w : nat).
  Fixpoint w_run_customs (cs : list cparser) (cursor : str) : counted (option (result (value unit) perr * str)) :=
    match cs with
    | [] => (None, read 0)
    | p :: cs' =>
        match p cursor with
        | (Some r, cur) => (Some (r, cur), read w)
        | (None, cur) => after (read w) (w_run_customs cs' cur)
        end
    end.

  (** from_string.rs:222-277; line 238 asks for a character per byte the custom parser consumed. *)
  Fixpoint w_parse_value (customs : list cparser) (fuel : nat) (t : str) {struct fuel} : counted (pres (value unit)) :=
    match fuel with
    | O => ((Err fuel_err, t), read 0)
    | S k =>
        let (r, n) := w_run_customs customs t in
        let (p, m) :=
          match r with
          | Some (Ok v, cursor) => ((Ok v, wind_forward t cursor), also n (read (N.to_nat (blen t - blen cursor))))
          | Some (Err e, _) => ((Err (shift_err (offset total t) e), t), n)
          | None => after n (w_parse_builtin (w_parse_value customs k) k t)
          end in
        (p, inner_call m)
    end.
End Parser.

(** [FromStrBuilder::parse], from_string.rs:60-65, with custom parsers that cost [w] each time they are called. *)
Definition w_parse_custom (U : unicode) (w : nat) (customs : list cparser) (s : str) : counted (pres (value unit)) :=
  w_parse_value U (blen s) w customs (S (length s)) s.
