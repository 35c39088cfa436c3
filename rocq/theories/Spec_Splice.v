(** * Spec_Splice: one part of a value is put in the place of another, wherever it stands. *)
From Verif Require Import Base Value Spec_Edit.

(** [swap p u w v v']: the part of [v] at the path [p] (positions, from the outside in) is [u]; [v'] is [v] with [w] there. *)
Inductive swap {C} : list nat -> value C -> value C -> value C -> value C -> Prop :=
| Swap_here : forall u w, swap [] u w u w
| Swap_composite : forall i p u w c c' x x' y, replaced c c' i x x' -> swap p u w x x' ->
    swap (i :: p) u w (Val (DComposite c) y) (Val (DComposite c') y)
| Swap_variant : forall i p u w n c c' x x' y, replaced c c' i x x' -> swap p u w x x' ->
    swap (i :: p) u w (Val (DVariant n c) y) (Val (DVariant n c') y).
