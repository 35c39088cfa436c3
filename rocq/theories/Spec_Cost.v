(** * Spec_Cost: vocabulary for counting work. *)
From Verif Require Import Base Value Registry.
Open Scope N_scope.

Fixpoint total (l : list N) : N := match l with [] => 0 | a :: l' => a + total l' end.
Definition largest (l : list N) : N := fold_right N.max 0 l.

(** The number of values inside a value, itself included. *)
Fixpoint nodes {T} (v : value T) : N :=
  match v with
  | Val d _ => 1 + total (match d with DComposite c | DVariant _ c => values (composite_map nodes c) | _ => [] end)
  end.
(** How deeply composites and variants are nested in a value. *)
Fixpoint depth {T} (v : value T) : N :=
  match v with
  | Val d _ => match d with DComposite c | DVariant _ c => 1 + largest (values (composite_map depth c)) | _ => 0 end
  end.

(** As in Rust: either no field has a name, or all have one, and these are different. *)
Definition fields_ok {TId} (fs : list (field TId)) : Prop :=
  (forall f, In f fs -> fst f = None) \/ exists names, map fst fs = map Some names /\ NoDup names.
Definition names_distinct {TId} (reg : TId -> resolution TId) : Prop :=
  (forall t fs, reg t = ResTy (TComposite fs) -> fields_ok fs) /\
  (forall t vs v, reg t = ResTy (TVariant vs) -> In v vs -> fields_ok (vi_fields v)).
