(** * MacroDepth: [value!] against rustc's recursion limit; the rules of macros.rs:76-330, one macro invocation at a time.

    The rules are those of Macro.v; here every result comes with the number of nested expansions it took.  An invocation in the
    output of an expansion is one level deeper than the expansion; an invocation that is passed on as an expression (in [$e],
    [$v], [$value]) is expanded where it ends up, in the elements of the final [vec!].  [vd] is the number of levels [vec!] of
    the standard library takes until its elements are reached (1, or 2 where it uses a helper macro); [ud e] is the depth of
    the macros in the user's expression [e].  [literal_aware_stringify!] and [stringify!] (2 levels) are always invoked beside
    [vec_wrapper!] and [vec!] or something deeper, and so are not counted. *)
From Verif Require Import Base Value Macro.

Section Depth.
  Context {E : Type} (P : list tok -> eparse E) (from : E -> value unit) (key_name : E -> str) (ud : E -> nat) (vd : nat).

  (** An expression that was collected, and the number of invocations around what [mexpr] says: a user's expression is
      always passed as [value_internal!(e)], a nested form as [value_internal!(form)], which is what [EMac] stands for. *)
  Definition layer (m : mexpr (E := E)) : nat := match m with EMac _ => 0 | EUser _ => 1 end.
  Definition dres (A : Type) : Type := option (list A * nat).
  Definition add {A} (n : nat) (r : dres A) : dres A := match r with Some (x, k) => Some (x, (n + k)%nat) | None => None end.

  (** [@unnamed [..] (value) rest], macros.rs:137-152. *)
  Definition after_value_d (k : list (nat * mexpr) -> list tok -> dres (nat * mexpr)) (acc : list (nat * mexpr)) (m : mexpr) (rest : list tok)
      : dres (nat * mexpr) :=
    match rest with
    | TComma :: r => add 1 (k (acc ++ [(layer m, m)]) r)              (* 138-140 *)
    | _ :: _ => None                                                  (* 144-147 *)
    | [] => Some (acc ++ [(S (layer m), m)], 1%nat)                   (* 150-152: [value_internal!($value)] once more *)
    end.
  (** [@unnamed [..] (inner)], macros.rs:114-157; the number of [value_internal!] invocations up to [vec_wrapper!]. *)
  Fixpoint unnamed_d (fuel : nat) (acc : list (nat * mexpr)) (inner : list tok) : dres (nat * mexpr) :=
    match fuel with
    | O => None
    | S f =>
        let next m r := add 1 (after_value_d (unnamed_d f) acc m r) in
        match inner with
        | [] => Some (acc, 1%nat)                                                            (* 115 *)
        | TGroup Paren a :: r => next (EMac [TGroup Paren a]) r                              (* 118-120 *)
        | TIdent n :: TGroup Paren a :: r => next (EMac [TIdent n; TGroup Paren a]) r        (* 123-125 *)
        | TGroup Brace m :: r => next (EMac [TGroup Brace m]) r                              (* 128-130 *)
        | TIdent n :: TGroup Brace m :: r => next (EMac [TIdent n; TGroup Brace m]) r        (* 133-135 *)
        | _ =>
            match P inner with
            | POk e [] => Some (acc ++ [(1%nat, EUser e)], 1%nat)                            (* 150-152 *)
            | POk e (TComma :: r) => next (EUser e) (TComma :: r)                            (* 155-157 *)
            | _ => None
            end
        end
    end.

  (** [@named [..] [key] (value) rest], macros.rs:166-187. *)
  Definition after_entry_d (k : list (str * (nat * mexpr)) -> list tok -> dres (str * (nat * mexpr))) (acc : list (str * (nat * mexpr)))
      (key : E) (m : mexpr) (rest : list tok) : dres (str * (nat * mexpr)) :=
    match rest with
    | TComma :: r => add 1 (k (acc ++ [(key_name key, (layer m, m))]) r)   (* 167-172 *)
    | _ :: _ => None                                                       (* 176-179 *)
    | [] => Some (acc ++ [(key_name key, (layer m, m))], 1%nat)            (* 182-187 *)
    end.
  (** [@named [..] (partial) (rest)], macros.rs:159-246. *)
  Fixpoint named_d (fuel : nat) (acc : list (str * (nat * mexpr))) (partial rest : list tok) : dres (str * (nat * mexpr)) :=
    match fuel with
    | O => None
    | S f =>
        let next key m r := add 1 (after_entry_d (fun a r => named_d f a [] r) acc key m r) in
        let others :=
          match partial, rest with
          | [], TColon :: _ => None                                                          (* 230-232 *)
          | _, TComma :: _ => None                                                           (* 235-237 *)
          | [], TGroup Paren k :: TColon :: r =>
              match P k with
              | PFatal => None
              | POk key [] => match value_rules P (next key) r with Some x => add 1 x | None => None end   (* 239-241, then 190-222 *)
              | _ => add 1 (named_d f acc [TGroup Paren k] (TColon :: r))
              end
          | _, t :: r => add 1 (named_d f acc (partial ++ [t]) r)                            (* 244-246 *)
          | _, [] => None
          end in
        match partial, rest with
        | [], [] => Some (acc, 1%nat)                                                        (* 164 *)
        | [], _ => others
        | _ :: _, _ =>
            match P partial with
            | PFatal => None
            | POk key [] =>                                                                  (* 190-227 *)
                match rest with
                | TColon :: r => match value_rules P (next key) r with Some x => x | None => others end
                | [] => None                                                                 (* 225-227 *)
                | _ => others
                end
            | _ => others
            end
        end
    end.

  (** The elements of the [vec!]: each is expanded on its own, the deepest counts. *)
  Fixpoint values_d (ex : list tok -> option (value unit * nat)) (l : list (nat * mexpr)) : option (list (value unit) * nat) :=
    match l with
    | [] => Some ([], O)
    | (w, m) :: l' =>
        match (match m with EMac ts => ex ts | EUser e => Some (from e, ud e) end), values_d ex l' with
        | Some (x, n), Some (r, d) => Some (x :: r, Nat.max (w + n) d)
        | _, _ => None
        end
    end.
  Fixpoint entries_d (ex : list tok -> option (value unit * nat)) (l : list (str * (nat * mexpr))) : option (list (str * value unit) * nat) :=
    match l with
    | [] => Some ([], O)
    | (k, (w, m)) :: l' =>
        match (match m with EMac ts => ex ts | EUser e => Some (from e, ud e) end), entries_d ex l' with
        | Some (x, n), Some (r, d) => Some ((k, x) :: r, Nat.max (w + n) d)
        | _, _ => None
        end
    end.

  (** [value_internal!(ts)], macros.rs:248-300: itself, the [s] invocations that collect the fields, [vec_wrapper!]
      (macros.rs:303-310), [vec!] and the elements. *)
  Definition build {A B} (w : list B -> value unit) (fields : dres A) (elems : list A -> option (list B * nat)) : option (value unit * nat) :=
    match fields with
    | Some (l, s) => match elems l with Some (xs, d) => Some (w xs, (1 + s + (1 + vd) + d)%nat) | None => None end
    | None => None
    end.
  Fixpoint expand_d (fuel : nat) (ts : list tok) : option (value unit * nat) :=
    match fuel with
    | O => None
    | S f =>
        match ts with
        | [] => Some (unnamed_composite [], 1%nat)
        | [TGroup Paren []] => Some (unnamed_composite [], 1%nat)
        | [TGroup Brace []] => Some (named_composite [], 1%nat)
        | [TGroup Brace l] => build named_composite (named_d f [] [] l) (entries_d (expand_d f))
        | [TIdent n; TGroup Brace l] => build (named_variant n) (named_d f [] [] l) (entries_d (expand_d f))
        | [TGroup Paren l] => build unnamed_composite (unnamed_d f [] l) (values_d (expand_d f))
        | [TIdent n; TGroup Paren l] => build (unnamed_variant n) (unnamed_d f [] l) (values_d (expand_d f))
        | _ => match P ts with POk e [] => Some (from e, (1 + ud e)%nat) | _ => None end
        end
    end.

  (** [value!(ts)] (macros.rs:76-80, one more level) under [#![recursion_limit = "limit"]]: compiles, to [v]. *)
  Definition compiles_within (limit : nat) (ts : list tok) (v : value unit) : Prop :=
    exists f n, expand_d f ts = Some (v, n) /\ (1 + n <= limit)%nat.
End Depth.
