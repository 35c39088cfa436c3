(** * Spec_Shared: the calls of a closure that is mapped over a value (C01). *)
From Verif Require Import Base Value Spec_Value.

(** One call of the closure. *)
Record call (S G T U : Type) : Type := Call {
  place : list nat;    (** path of the value it is made for *)
  own : S;             (** what the closure owns before the call *)
  shared : G;          (** what is shared with all clones before the call *)
  arg : T; answer : U;
  own_after : S; shared_after : G }.
Arguments Call {S G T U}. Arguments place {S G T U}. Arguments own {S G T U}. Arguments shared {S G T U}.
Arguments arg {S G T U}. Arguments answer {S G T U}. Arguments own_after {S G T U}. Arguments shared_after {S G T U}.

(** The order of the text: a value comes before what it contains, and of two values in the same composite the first one,
    with everything in it, comes before the second. *)
Definition comes_before (p q : list nat) : Prop :=
  (exists i r, q = p ++ i :: r) \/
  (exists c i j r r', p = c ++ i :: r /\ q = c ++ j :: r' /\ i < j).

(** Nothing touches what is shared between one call and the next. *)
Fixpoint handed_on {S G T U} (g : G) (cs : list (call S G T U)) (g' : G) : Prop :=
  match cs with
  | [] => g = g'
  | c :: cs' => shared c = g /\ handed_on (shared_after c) cs' g'
  end.
