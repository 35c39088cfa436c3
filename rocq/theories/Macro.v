(** * Macro: model of the [value!] macro, /repo/src/macros.rs, and of the [From] conversions it uses (value_type.rs).

    A [macro_rules!] macro tries its rules in order on a list of token trees.  rustc's expression parser, what an expression
    evaluates to and what [stringify!] prints are not part of the crate: they are parameters ([P], [from], [key_name]).
    The first rule whose pattern fits is taken; an [expr] fragment that starts like an expression but is none ([PFatal]) is a
    compile error at once, as in rustc.  The recursion limit of macros is not modelled here but in MacroDepth.v (expansions take fuel; the theorems
    hold for all large enough fuel), nor is hygiene: the [let]-bound names of two expansions are different variables. *)
From Verif Require Import Base Value.

Inductive delim : Type := Paren | Brace | Bracket.

(** Token trees.  [TOther] is any other token (literals, operators, lifetimes). *)
Inductive tok : Type :=
| TIdent (s : str)
| TComma
| TColon
| TOther (n : N)
| TGroup (d : delim) (l : list tok).

(** Parsing an [expr] fragment at the front of some tokens. *)
Inductive eparse (E : Type) : Type :=
| PNone                            (* the first token cannot begin an expression *)
| PFatal                           (* syntax error *)
| POk (e : E) (rest : list tok).
Arguments PNone {E}.
Arguments PFatal {E}.
Arguments POk {E} e rest.

Section Expand.
  Context {E : Type} (P : list tok -> eparse E) (from : E -> value unit) (key_name : E -> str).

  (** An expression in the expansion: a nested [value_internal!(..)] or one of the user's under [Value::from]. *)
  Inductive mexpr : Type := EMac (ts : list tok) | EUser (e : E).

  (** After a value was found: rules 137-152 for [@unnamed .. (value) rest]. *)
  Definition after_value {A} (k : list mexpr -> list tok -> option A) (done : list mexpr -> option A)
      (acc : list mexpr) (v : mexpr) (rest : list tok) : option A :=
    match rest with
    | TComma :: r => k (acc ++ [v]) r                 (* 138-140 *)
    | _ :: _ => None                                  (* 144-147: compile_error! *)
    | [] => done (acc ++ [v])                         (* 150-152; [Value::from] of a value is the value *)
    end.

  (** The [@unnamed] rules, macros.rs:110-157. *)
  Fixpoint unnamed_rules (fuel : nat) (acc : list mexpr) (inner : list tok) : option (list mexpr) :=
    match fuel with
    | O => None
    | S f =>
        let next := after_value (unnamed_rules f) Some acc in
        match inner with
        | [] => Some acc                                                                     (* 115 *)
        | TGroup Paren a :: r => next (EMac [TGroup Paren a]) r                              (* 118-120 *)
        | TIdent n :: TGroup Paren a :: r => next (EMac [TIdent n; TGroup Paren a]) r        (* 123-125 *)
        | TGroup Brace m :: r => next (EMac [TGroup Brace m]) r                              (* 128-130 *)
        | TIdent n :: TGroup Brace m :: r => next (EMac [TIdent n; TGroup Brace m]) r        (* 133-135 *)
        | _ =>
            match P inner with
            | POk e [] => Some (acc ++ [EUser e])                                            (* 150-152 *)
            | POk e (TComma :: r) => next (EUser e) (TComma :: r)                            (* 155-157 *)
            | _ => None                                                                      (* no rule matches *)
            end
        end
    end.

  (** After a key and a value were found: rules 166-187 for [@named .. [key] (value) rest]. *)
  Definition after_entry {A} (k : list (str * mexpr) -> list tok -> option A) (done : list (str * mexpr) -> option A)
      (acc : list (str * mexpr)) (key : E) (v : mexpr) (rest : list tok) : option A :=
    match rest with
    | TComma :: r => k (acc ++ [(key_name key, v)]) r    (* 167-172 *)
    | _ :: _ => None                                     (* 176-179 *)
    | [] => done (acc ++ [(key_name key, v)])            (* 182-187 *)
    end.

  (** The value after a colon: rules 190-222, in their order.  [None]: none of these rules matches. *)
  Definition value_rules {A} (next : mexpr -> list tok -> option A) (r : list tok) : option (option A) :=
    match r with
    | TGroup Paren a :: r' => Some (next (EMac [TGroup Paren a]) r')
    | TIdent n :: TGroup Paren a :: r' => Some (next (EMac [TIdent n; TGroup Paren a]) r')
    | TGroup Brace m :: r' => Some (next (EMac [TGroup Brace m]) r')
    | TIdent n :: TGroup Brace m :: r' => Some (next (EMac [TIdent n; TGroup Brace m]) r')
    | _ =>
        match P r with
        | PFatal => Some None
        | POk e (TComma :: r') => Some (next (EUser e) (TComma :: r'))                       (* 210-212 *)
        | POk e [] => Some (next (EUser e) [])                                               (* 215-217 *)
        | _ => match r with [] => Some None | _ :: _ => None end                             (* 220-222 *)
        end
    end.

  (** The [@named] rules, macros.rs:159-246, for the state [@named [acc] (partial) (rest)]. *)
  Fixpoint named_rules (fuel : nat) (acc : list (str * mexpr)) (partial rest : list tok) : option (list (str * mexpr)) :=
    match fuel with
    | O => None
    | S f =>
        let next key := after_entry (fun a r => named_rules f a [] r) Some acc key in
        let others :=                                                                        (* 230-246 *)
          match partial, rest with
          | [], TColon :: _ => None                                                          (* 230-232 *)
          | _, TComma :: _ => None                                                           (* 235-237 *)
          | [], TGroup Paren k :: TColon :: r =>
              match P k with
              | PFatal => None
              | POk key [] =>                                                                (* 239-241, then 190-222 *)
                  (* where these do not match, the key in parentheses is taken as the beginning of a longer one; that never
                     makes an expression, as a colon ends one: simplified to no match *)
                  match value_rules (next key) r with Some x => x | None => None end
              | _ => named_rules f acc [TGroup Paren k] (TColon :: r)
              end
          | _, t :: r => named_rules f acc (partial ++ [t]) r                                (* 244-246 *)
          | _, [] => None
          end in
        match partial, rest with
        | [], [] => Some acc                                                                 (* 164 *)
        | [], _ => others
        | _ :: _, _ =>
            match P partial with
            | PFatal => None
            | POk key [] =>                                                                  (* 190-227 *)
                match rest with
                | TColon :: r => match value_rules (next key) r with Some x => x | None => others end
                | [] => None                                                                 (* 225-227 *)
                | _ => others
                end
            | _ => others
            end
        end
    end.

  (** The expressions collected in a [vec!]: nested invocations are expanded by [ex]. *)
  Fixpoint values_with (ex : list tok -> option (value unit)) (l : list mexpr) : option (list (value unit)) :=
    match l with
    | [] => Some []
    | v :: l' =>
        match (match v with EMac ts => ex ts | EUser e => Some (from e) end), values_with ex l' with
        | Some x, Some r => Some (x :: r)
        | _, _ => None
        end
    end.
  Fixpoint entries_with (ex : list tok -> option (value unit)) (l : list (str * mexpr)) : option (list (str * value unit)) :=
    match l with
    | [] => Some []
    | (k, v) :: l' =>
        match (match v with EMac ts => ex ts | EUser e => Some (from e) end), entries_with ex l' with
        | Some x, Some r => Some ((k, x) :: r)
        | _, _ => None
        end
    end.

  (** The main rules, macros.rs:248-300.  The nested invocations are expanded last. *)
  Fixpoint expand (fuel : nat) (ts : list tok) : option (value unit) :=
    match fuel with
    | O => None
    | S f =>
        let values_of := values_with (expand f) in
        let entries_of := entries_with (expand f) in
        match ts with
        | [] => Some (unnamed_composite [])                                                   (* 253-255 *)
        | [TGroup Paren []] => Some (unnamed_composite [])                                    (* 256-258 *)
        | [TGroup Brace []] => Some (named_composite [])                                      (* 259-261 *)
        | [TGroup Brace l] => option_map named_composite (obind (named_rules f [] [] l) entries_of)            (* 264-269 *)
        | [TIdent n; TGroup Brace l] => option_map (named_variant n) (obind (named_rules f [] [] l) entries_of)  (* 272-278 *)
        | [TGroup Paren l] => option_map unnamed_composite (obind (unnamed_rules f [] l) values_of)            (* 281-286 *)
        | [TIdent n; TGroup Paren l] => option_map (unnamed_variant n) (obind (unnamed_rules f [] l) values_of)  (* 289-295 *)
        | _ => match P ts with POk e [] => Some (from e) | _ => None end                      (* 298-300 *)
        end
    end.

  (** [value!], macros.rs:76-80: it expands to [v] ([None]: it does not compile). *)
  Definition value_macro (ts : list tok) (v : value unit) : Prop := exists n, forall f, (n <= f)%nat -> expand f ts = Some v.
  Definition does_not_compile (ts : list tok) : Prop := forall f, expand f ts = None.
End Expand.

(** ** The [From] conversions to [Value<()>], value_type.rs:198-335, 374-384, 451-516 *)
Inductive rust : Type :=
| RBool (b : bool)
| RChar (c : char)
| RString (s : str)                       (* String and &str *)
| RUint (w : N) (n : N)                   (* u8 .. u128, usize *)
| RInt (w : N) (z : Z)                    (* i8 .. i128, isize *)
| RBits (b : list bool)
| RVec (l : list rust)
| RPairs (l : list (str * rust))          (* Vec<(K, V)> *)
| RComposite (c : composite (value unit))
| RVariant (n : str) (c : composite (value unit))
| RValue (v : value unit).

Fixpoint value_from (r : rust) : value unit :=
  match r with
  | RBool b => Val (DPrim (PBool b)) tt                                                       (* 457-495 *)
  | RChar c => Val (DPrim (PChar c)) tt
  | RString s => Val (DPrim (PString s)) tt                                                   (* 500-516 *)
  | RUint _ n => Val (DPrim (from_uint (Z.of_N n))) tt                                        (* [val as u128] *)
  | RInt _ z => Val (DPrim (from_int z)) tt                                                   (* [val as i128] *)
  | RBits b => Val (DBits b) tt                                                               (* 204-208 *)
  | RVec l => Val (DComposite (Unnamed (map value_from l))) tt                                (* 287-304 *)
  | RPairs l => Val (DComposite (Named (map (fun kv => match kv with (k, x) => (k, value_from x) end) l))) tt  (* 306-323 *)
  | RComposite c => Val (DComposite c) tt                                                     (* 331-335 *)
  | RVariant n c => Val (DVariant n c) tt                                                     (* 380-384 *)
  | RValue v => v
  end.
