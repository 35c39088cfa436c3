(** * SerdeCalls: the compound serializers of [ValueSerializer] as state machines (serializer.rs:213-409). *)
From Verif Require Import Base Value Serde.

(** [UnnamedCompositeSerializer], serializer.rs:213-218 (the values in the order of the [Vec]). *)
Record unnamed_ser : Type := { us_variant : option str; us_values : list (value unit) }.
(** [NamedCompositeSerializer], serializer.rs:310-316. *)
Record named_ser : Type := { ns_variant : option str; ns_values : list (str * value unit); ns_key : option str }.

(** serializer.rs:221-227. *)
Definition us_new (variant : option str) : unnamed_ser := {| us_variant := variant; us_values := [] |}.
(** serializer.rs:319-325. *)
Definition ns_new (variant : option str) : named_ser := {| ns_variant := variant; ns_values := []; ns_key := None |}.

(** What one call does: it returns with a result and the new state, or it panics. *)
Inductive step (S : Type) : Type :=
| Returns (r : result unit serr) (s : S)
| Panics.
Arguments Returns {S} r s.
Arguments Panics {S}.

(** [serialize_element] (and [serialize_field] of tuple structs and tuple variants), serializer.rs:229-236. *)
Definition us_element (s : unnamed_ser) (x : sd) : step unnamed_ser :=
  match to_value_sd x with
  | Err e => Returns (Err e) s
  | Ok v => Returns (Ok tt) {| us_variant := us_variant s; us_values := us_values s ++ [v] |}
  end.

(** [end], serializer.rs:238-243. *)
Definition us_end (s : unnamed_ser) : value unit :=
  match us_variant s with
  | Some n => unnamed_variant n (us_values s)
  | None => unnamed_composite (us_values s)
  end.

(** [serialize_field], serializer.rs:327-335. *)
Definition ns_field (s : named_ser) (k : str) (x : sd) : step named_ser :=
  match to_value_sd x with
  | Err e => Returns (Err e) s
  | Ok v => Returns (Ok tt) {| ns_variant := ns_variant s; ns_values := ns_values s ++ [(k, v)]; ns_key := ns_key s |}
  end.

(** [serialize_key], serializer.rs:349-364. *)
Definition ns_serialize_key (s : named_ser) (k : sd) : step named_ser :=
  match to_value_sd k with
  | Err e => Returns (Err e) s
  | Ok v =>
      match key_of v with
      | Err e => Returns (Err e) s
      | Ok str => Returns (Ok tt) {| ns_variant := ns_variant s; ns_values := ns_values s; ns_key := Some str |}
      end
  end.

(** [serialize_value], serializer.rs:366-372: [take] empties the slot also when the value then fails; [expect] panics. *)
Definition ns_serialize_value (s : named_ser) (x : sd) : step named_ser :=
  match ns_key s with
  | None => Panics
  | Some k => ns_field {| ns_variant := ns_variant s; ns_values := ns_values s; ns_key := None |} k x
  end.

(** [end], serializer.rs:337-342. *)
Definition ns_end (s : named_ser) : value unit :=
  match ns_variant s with
  | Some n => named_variant n (ns_values s)
  | None => named_composite (ns_values s)
  end.

(** The calls of the three traits [NamedCompositeSerializer] implements ([serialize_entry] is a key and a value;
    [skip_field] does nothing). *)
Inductive call : Type :=
| CKey (k : sd)
| CValue (x : sd)
| CField (k : str) (x : sd).

Definition ns_call (s : named_ser) (c : call) : step named_ser :=
  match c with
  | CKey k => ns_serialize_key s k
  | CValue x => ns_serialize_value s x
  | CField k x => ns_field s k x
  end.

(** A caller that goes on after errors: the results of the calls and the last state; [None] if a call panics. *)
Fixpoint run {S C} (f : S -> C -> step S) (s : S) (l : list C) : option (list (result unit serr) * S) :=
  match l with
  | [] => Some ([], s)
  | c :: l' =>
      match f s c with
      | Panics => None
      | Returns r s' => match run f s' l' with Some (rs, s'') => Some (r :: rs, s'') | None => None end
      end
  end.

(** A caller that stops at the first error (the [?] of derived impls). *)
Fixpoint run_strict {S C} (f : S -> C -> step S) (s : S) (l : list C) : option (result S serr) :=
  match l with
  | [] => Some (Ok s)
  | c :: l' =>
      match f s c with
      | Panics => None
      | Returns (Err e) _ => Some (Err e)
      | Returns (Ok _) s' => run_strict f s' l'
      end
  end.
