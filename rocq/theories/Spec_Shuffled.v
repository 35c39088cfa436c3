(** * Spec_Shuffled: a value with its named fields in another order (C111). *)
From Coq Require Import Permutation.
From Verif Require Import Base Value.

(** The same value, at any depth with other contexts and the named fields of composites and variants in any order. *)
Inductive shuffled {S T} : value S -> value T -> Prop :=
| SH_prim p c1 c2 : shuffled (Val (DPrim p) c1) (Val (DPrim p) c2)
| SH_bits b c1 c2 : shuffled (Val (DBits b) c1) (Val (DBits b) c2)
| SH_composite k1 k2 c1 c2 : fields_shuffled k1 k2 -> shuffled (Val (DComposite k1) c1) (Val (DComposite k2) c2)
| SH_variant n k1 k2 c1 c2 : fields_shuffled k1 k2 -> shuffled (Val (DVariant n k1) c1) (Val (DVariant n k2) c2)
with fields_shuffled {S T} : composite (value S) -> composite (value T) -> Prop :=
| FS_unnamed l m : list_shuffled l m -> fields_shuffled (Unnamed l) (Unnamed m)
| FS_named l l' m : Permutation l l' -> map fst l' = map fst m -> list_shuffled (map snd l') (map snd m) -> fields_shuffled (Named l) (Named m)
with list_shuffled {S T} : list (value S) -> list (value T) -> Prop :=
| LS_nil : list_shuffled [] []
| LS_cons v w l m : shuffled v w -> list_shuffled l m -> list_shuffled (v :: l) (w :: m).
