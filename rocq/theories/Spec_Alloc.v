(** * Spec_Alloc: vocabulary for the allocation properties (C73). *)
From Verif Require Import Base Value Registry Spec_Cost.
Open Scope N_scope.

(** The lengths of all the lists (composites, and fields of variants) inside a value: outer ones before inner ones, in order. *)
Fixpoint list_sizes {T} (v : value T) : list N :=
  match v with
  | Val d _ => match d with
               | DComposite c | DVariant _ c => N.of_nat (length (values c)) :: concat (values (composite_map list_sizes c))
               | _ => []
               end
  end.

(** A run with an allocator that has room for [L] values in one list, and no more: [Vec::with_capacity(n)] with [n > L] does not
    return (it panics with "capacity overflow" when [n] values exceed [isize::MAX] bytes, and aborts the process when the memory
    is not there).  [log] are the capacities the run asks for when every request is granted, [r] what it then returns. *)
Inductive outcome (R : Type) : Type := Died | Returned (r : R).
Arguments Died {R}. Arguments Returned {R} r.
Definition run {R} (L : N) (m : R * list N) : outcome R :=
  if forallb (fun n => n <=? L) (snd m) then Returned (fst m) else Died.

(** The number of fields of some struct or variant of the registry, all of whose fields have names. *)
Definition named_field_count {TId} (reg : TId -> resolution TId) (n : N) : Prop :=
  exists t fs, n = N.of_nat (length fs) /\ Forall (fun f => fst f <> None) fs /\
    (reg t = ResTy (TComposite fs) \/ exists vs v, reg t = ResTy (TVariant vs) /\ In v vs /\ vi_fields v = fs).

(** A number written in the registry: a count of fields or entries, or the length of an array. *)
Definition written_in {TId} (reg : TId -> resolution TId) (n : N) : Prop :=
  exists t, (exists fs, reg t = ResTy (TComposite fs) /\ n = N.of_nat (length fs)) \/
            (exists vs v, reg t = ResTy (TVariant vs) /\ In v vs /\ n = N.of_nat (length (vi_fields v))) \/
            (exists ts, reg t = ResTy (TTuple ts) /\ n = N.of_nat (length ts)) \/
            (exists e, reg t = ResTy (TArray e n)).
