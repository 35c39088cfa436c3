(** * Spec_Growth: what it means that a registry has grown (C100).

    Nothing here mentions how values are encoded or decoded. *)
From Verif Require Import Base Value Registry.

Section Growth.
  Context {TId : Type} (added : str -> Prop).

  (** [ws] is [vs] with further variants put in anywhere; the names of these are [added], their indices are not in [used]. *)
  Inductive grown (used : list N) : list (vinfo TId) -> list (vinfo TId) -> Prop :=
  | G_nil : grown used [] []
  | G_keep v vs ws : grown used vs ws -> grown used (v :: vs) (v :: ws)
  | G_add w vs ws : added (vi_name w) -> ~ In (vi_index w) used -> grown used vs ws -> grown used vs (w :: ws).

  (** The same type, or an enum that has got more variants, with indices it did not use before. *)
  Inductive later : resolution TId -> resolution TId -> Prop :=
  | L_same r : later r r
  | L_more vs ws : grown (map vi_index vs) vs ws -> later (ResTy (TVariant vs)) (ResTy (TVariant ws)).

  (** Enums may have got more variants. *)
  Definition widened (reg reg' : TId -> resolution TId) : Prop := forall t, later (reg t) (reg' t).
  (** Besides, types that could not be resolved may have appeared. *)
  Definition upgraded (reg reg' : TId -> resolution TId) : Prop := forall t, later (reg t) (reg' t) \/ reg t = ResNotFound \/ reg t = ResErr.
End Growth.

(** Somewhere in the value there is a variant whose name satisfies [P]. *)
Inductive mentions {T : Type} (P : str -> Prop) : value T -> Prop :=
| M_here n c x : P n -> mentions P (Val (DVariant n c) x)
| M_in d x v : In v (children d) -> mentions P v -> mentions P (Val d x).
