(** * Spec_Rearranged: the same data with its fields in another order, or without their names (C110). *)
From Coq Require Import Permutation.
From Verif Require Import Base Value Serde Spec_Serde Registry Spec_Scale Spec_Encode.
Local Open Scope N_scope.

(** The same primitive, or the same number. *)
Inductive same_prim : prim -> prim -> Prop :=
| SP_same p : same_prim p p
| SP_signed n : same_prim (PU128 n) (PI128 (Z.of_N n))
| SP_unsigned n : same_prim (PI128 (Z.of_N n)) (PU128 n).

(** The fields of a composite: named ones in any order, or in the same order without the names ([one] says whether the name of an only field can be left out). *)
Inductive fields_rearranged {A B} (R : A -> B -> Prop) (one : Prop) : composite A -> composite B -> Prop :=
| FR_named (l l' : list (str * A)) (m : list (str * B)) : Permutation l l' -> Forall2 (fun a b => fst a = fst b /\ R (snd a) (snd b)) l' m ->
    fields_rearranged R one (Named l) (Named m)
| FR_unnamed l m : Forall2 R l m -> fields_rearranged R one (Unnamed l) (Unnamed m)
| FR_nameless (l : list (str * A)) m : (length l = 1%nat -> one) -> Forall2 R (map snd l) m -> fields_rearranged R one (Named l) (Unnamed m).

(** The same data: other contexts; integers given with another sign of their type; bit sequences given as lists of booleans or of the numbers 0 and 1; fields rearranged. *)
Inductive rearranged {S T} : value S -> value T -> Prop :=
| RA_prim p q c1 c2 : same_prim p q -> rearranged (Val (DPrim p) c1) (Val (DPrim q) c2)
| RA_bits b c1 c2 : rearranged (Val (DBits b) c1) (Val (DBits b) c2)
| RA_bools b l c1 c2 : Forall2 is_bit l b -> rearranged (Val (DBits b) c1) (Val (DComposite (Unnamed l)) c2)
| RA_composite k1 k2 c1 c2 : fields_rearranged rearranged False k1 k2 -> rearranged (Val (DComposite k1) c1) (Val (DComposite k2) c2)
| RA_variant n k1 k2 c1 c2 : fields_rearranged rearranged True k1 k2 -> rearranged (Val (DVariant n k1) c1) (Val (DVariant n k2) c2).

(** Another document with the entries of its objects (maps) in another order, as after sorting the keys. *)

Inductive objects_reordered : doc -> doc -> Prop :=
| OR_list l m : Forall2 objects_reordered l m -> objects_reordered (FSeq l) (FSeq m)
| OR_object l l' m : Permutation l l' -> Forall2 (fun a b => fst a = fst b /\ objects_reordered (snd a) (snd b)) l' m -> objects_reordered (FMap l) (FMap m)
| OR_other d : (forall l, d <> FSeq l) -> (forall l, d <> FMap l) -> objects_reordered d d.
(** No field has the name that is taken for bit sequences. *)
Definition no_field_reserved {T} (d : vdef (value T)) : Prop :=
  match d with
  | DComposite (Named l) | DVariant _ (Named l) => ~ In reserved_key (map fst l)
  | _ => True
  end.
