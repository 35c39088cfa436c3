(** * ParseState: model of from_string.rs with custom parsers that have memory.

    A custom parser is a closure [Fn(&mut &str) -> Option<Result<Value, ParseError>>] (from_string.rs:28-29); through a [Cell], a lock or the
    outside world its answer can depend on everything that happened before.  Parse.v models parsers as functions of the text; here they take
    and return a memory.  The built-in parsers are those of Parse.v; only what can call back is written again, line by line. *)
From Verif Require Import Base Value Chars Parse.
Local Open Scope N_scope.

Section Memory.
  Context (U : unicode) (total : N) {M : Type}.

  Definition mparser : Type := M -> str -> M * (option (result (value unit) perr) * str).

  (** The loop over the custom parsers, from_string.rs:232-255. *)
  Fixpoint mrun (ps : list mparser) (m : M) (cursor : str) : M * option (result (value unit) perr * str) :=
    match ps with
    | [] => (m, None)
    | p :: ps' =>
        match p m cursor with
        | (m', (Some r, cur)) => (m', Some (r, cur))
        | (m', (None, cur)) => mrun ps' m' cur
        end
    end.

  (** Alternatives with memory; what has been remembered stays so when an alternative is given up. *)
  Definition malt (A : Type) : Type := M -> str -> M * ores A.
  Definition still {A} (a : alt A) : malt A := fun m t => (m, a t).
  Fixpoint mone_of {A} (alts : list (malt A)) (m : M) (t : str) : M * (option (result A perr) * str) :=
    match alts with
    | [] => (m, (None, t))
    | a :: alts' =>
        match a m t with
        | (m', (Ok v, t')) => (m', (Some (Ok v), t'))
        | (m', (Err (Some e), t')) => (m', (Some (Err e), t'))
        | (m', (Err None, _)) => mone_of alts' m' t
        end
    end.
  Definition momap {A B} (f : A -> B) (a : malt A) : malt B := fun m t =>
    match a m t with (m', (r, t')) => (m', (rmap f r, t')) end.

  Section Rec.
    Context (pv : M -> str -> M * pres (value unit)).

    (** from_string.rs:530-540 *)
    Definition mfield (m : M) (t : str) : M * pres (str * value unit) :=
      match parse_field_name U total t with
      | (Err e, t1) => (m, (Err e, t1))
      | (Ok name, t1) =>
          let (ok, t2) := skip_spaced_separator c_colon t1 in
          if negb ok then (m, (Err (e_at_one (EMissingSep c_colon) (offset total t2)), t2)) else
          match pv m t2 with
          | (m', (Err e, t3)) => (m', (Err e, t3))
          | (m', (Ok v, t3)) => (m', (Ok (name, v), t3))
          end
      end.

    (** yap [sep_by_err], see [sep_rest] and [sep_by] in Parse.v. *)
    Fixpoint msep_rest {A} (fuel : nat) (item : M -> str -> M * pres A) (m : M) (t : str) (acc : list A) : M * pres (list A) :=
      match fuel with
      | O => (m, (Err fuel_err, t))
      | S k =>
          let (ok, t1) := skip_spaced_separator c_comma t in
          if negb ok then (m, (Ok (rev acc), t)) else
          match item m t1 with
          | (m', (Err e, _)) => (m', (Err e, t))
          | (m', (Ok a, t2)) => msep_rest k item m' t2 (a :: acc)
          end
      end.
    Definition msep_by {A} (fuel : nat) (item : M -> str -> M * pres A) (m : M) (t : str) : M * pres (list A) :=
      match item m t with
      | (m', (Err e, _)) => (m', (Err e, t))
      | (m', (Ok a, t1)) => msep_rest fuel item m' t1 [a]
      end.

    (** Common part of the two composite parsers, from_string.rs:289-311, 319-338. *)
    Definition mdelimited {A} (op cl : char) (fuel : nat) (item : M -> str -> M * pres A) : malt (list A) := fun m t =>
      let start := offset total t in
      let (ok, t1) := token op t in
      if negb ok then (m, (Err None, t1)) else
      let t2 := skip_whitespace t1 in
      let (ok, t3) := token cl t2 in
      if ok then (m, (Ok [], t3)) else
      match msep_by fuel item m t3 with
      | (m', (Err e, t4)) => (m', (Err (Some e), t4))
      | (m', (Ok l, t4)) =>
          let t5 := skip_whitespace t4 in
          let (ok, t6) := token cl t5 in
          if negb ok then (m', (Err (Some (e_at_one (ECloser cl start) (offset total t6))), t6))
          else (m', (Ok l, t6))
      end.
    (** from_string.rs:285-312, 315-339 *)
    Definition mnamed (fuel : nat) : malt (composite (value unit)) := momap Named (mdelimited c_lbrace c_rbrace fuel mfield).
    Definition munnamed (fuel : nat) : malt (composite (value unit)) := momap Unnamed (mdelimited c_lpar c_rpar fuel pv).

    (** from_string.rs:342-363 *)
    Definition mvariant (fuel : nat) : malt (value unit) := fun m t =>
      match parse_optional_variant_ident U total t with
      | (Some (Ok ident), t1) =>
          let t2 := skip_whitespace t1 in
          match mone_of [mnamed fuel; munnamed fuel] m t2 with
          | (m', (Some (Ok vs), t3)) => (m', (Ok (variant ident vs), t3))
          | (m', (Some (Err e), t3)) => (m', (Err (Some e), t3))
          | (m', (None, t3)) => (m', (Err None, t3))
          end
      | (_, t1) => (m, (Err None, t1))
      end.

    (** from_string.rs:259-277 *)
    Definition mbuiltin (fuel : nat) (m : M) (t : str) : M * pres (value unit) :=
      match mone_of [ still (omap vbool parse_bool);
                      still (omap vchar (parse_char total));
                      still (omap vstring (parse_string total));
                      still (omap primitive (parse_number total));
                      momap (fun c => without_context (DComposite c)) (mnamed fuel);
                      momap (fun c => without_context (DComposite c)) (munnamed fuel);
                      still (omap bit_sequence (parse_bit_sequence total));
                      mvariant fuel ] m t with
      | (m', (Some (Ok v), t')) => (m', (Ok v, t'))
      | (m', (Some (Err e), t')) => (m', (Err e, t'))
      | (m', (None, t')) => (m', (Err (e_at EExpectedValue (offset total t')), t'))
      end.
  End Rec.

  (** from_string.rs:222-277 *)
  Fixpoint mparse_value (ps : list mparser) (fuel : nat) (m : M) (t : str) {struct fuel} : M * pres (value unit) :=
    match fuel with
    | O => (m, (Err fuel_err, t))
    | S k =>
        match mrun ps m t with
        | (m', Some (Ok v, cursor)) => (m', (Ok v, wind_forward t cursor))
        | (m', Some (Err e, _)) => (m', (Err (shift_err (offset total t) e), t))
        | (m', None) => mbuiltin (mparse_value ps k) k m' t
        end
    end.
End Memory.
Arguments mparser : clear implicits.

(** [FromStrBuilder::parse], from_string.rs:60-65, with the memory before and after. *)
Definition mparse_custom (U : unicode) {M : Type} (ps : list (mparser M)) (m : M) (s : str) : M * pres (value unit) :=
  mparse_value U (blen s) ps (S (length s)) m s.
