(** * Equality: model of the derived [PartialEq] and [Clone] of value_type.rs:28, 171, 213, 339, 387. *)
From Verif Require Import Base Value.

(** [Vec<A>::eq]. *)
Section All2.
  Context {A B : Type} (f : A -> B -> bool).
  Fixpoint all2 (l1 : list A) (l2 : list B) : bool :=
    match l1, l2 with
    | [], [] => true
    | a :: l1', b :: l2' => f a b && all2 l1' l2'
    | _, _ => false
    end.
End All2.

(** [Primitive], derived at value_type.rs:387: the same variant and equal payloads. *)
Definition prim_eq (p q : prim) : bool :=
  match p, q with
  | PBool a, PBool b => Bool.eqb a b
  | PChar a, PChar b => (a =? b)%N
  | PString a, PString b => str_eqb a b
  | PU128 a, PU128 b => (a =? b)%N
  | PI128 a, PI128 b => (a =? b)%Z
  | PU256 a, PU256 b => all2 N.eqb a b
  | PI256 a, PI256 b => all2 N.eqb a b
  | _, _ => false
  end.

Section Eq.
  Context {T : Type} (ctx_eq : T -> T -> bool).

  (** [Composite], value_type.rs:213: a tuple is compared name first. *)
  Definition composite_eq {A} (f : A -> A -> bool) (c d : composite A) : bool :=
    match c, d with
    | Named l1, Named l2 => all2 (fun a b => str_eqb (fst a) (fst b) && f (snd a) (snd b)) l1 l2
    | Unnamed l1, Unnamed l2 => all2 f l1 l2
    | _, _ => false
    end.
  (** [ValueDef], value_type.rs:171, and [Variant], 339; [Bits] (scale-bits) compares as a list of bits. *)
  Definition vdef_eq {A} (f : A -> A -> bool) (d e : vdef A) : bool :=
    match d, e with
    | DComposite c1, DComposite c2 => composite_eq f c1 c2
    | DVariant n1 c1, DVariant n2 c2 => str_eqb n1 n2 && composite_eq f c1 c2
    | DBits b1, DBits b2 => all2 Bool.eqb b1 b2
    | DPrim p1, DPrim p2 => prim_eq p1 p2
    | _, _ => false
    end.
  (** [Value], value_type.rs:28: the value, then the context. *)
  Fixpoint value_eq (v w : value T) : bool :=
    match v, w with Val d c, Val e c' => vdef_eq value_eq d e && ctx_eq c c' end.
End Eq.

(** [Value::clone], value_type.rs:28: a deep copy, given that of the contexts. *)
Fixpoint value_clone {T} (ctx_clone : T -> T) (v : value T) : value T :=
  match v with Val d c => Val (vdef_map (value_clone ctx_clone) d) (ctx_clone c) end.
