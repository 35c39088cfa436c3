(** * Spec_Maps: vocabulary of C76. *)
From Verif Require Import Base Value Serde Spec_Parts.

(** [v] has the named fields [l]. *)
Definition named_fields {T} (v : value T) (l : list (str * value T)) : Prop :=
  (exists ctx, v = Val (DComposite (Named l)) ctx) \/ (exists n ctx, v = Val (DVariant n (Named l)) ctx).

(** Order of keys: at the first difference; a proper prefix comes first. *)
Definition key_lt (a b : str) : Prop :=
  exists p, (exists c r, a = p /\ b = p ++ c :: r) \/ (exists x y ra rb, a = p ++ x :: ra /\ b = p ++ y :: rb /\ (x < y)%N).

(** Keys in increasing order, so none twice. *)
Inductive sorted_keys {A} : list (str * A) -> Prop :=
| SK_nil : sorted_keys []
| SK_cons k x l : (forall k' x', In (k', x') l -> key_lt k k') -> sorted_keys l -> sorted_keys ((k, x) :: l).
