(** * Spec_DataEdit: values in which data lie with all their parts, at the places where [to_value] puts them (C113).

    Numbers may have the other sign type, contexts may differ, a char may be given as a string of one char: at the leaves it only counts what is read. *)
From Verif Require Import Base Value Serde Spec_Serde Spec_Maps Spec_Reads.

(** Types whose data have no parts. *)
Definition scalar (t : ty) : Prop :=
  match t with
  | TyOption _ | TyVec _ | TyTuple _ | TyTupleStruct _ | TyMap _ | TyMapChar _ | TyNewtype _ | TyStruct _ | TyEnum _ => False
  | _ => True
  end.

(** [lies leaf t x v]: the data [x] of type [t] lie in the value [v]; the data of [leaf] types are only read from their place. *)
Inductive lies {T} (leaf : ty -> Prop) : ty -> data -> value T -> Prop :=
| L_leaf t x v : leaf t -> from_value t v = Ok x -> lies leaf t x v
| L_none t ctx : lies leaf (TyOption t) XNone (Val (DVariant (s2l "None") (Unnamed [])) ctx)
| L_some t x v ctx : lies leaf t x v -> lies leaf (TyOption t) (XSome x) (Val (DVariant (s2l "Some") (Unnamed [v])) ctx)
| L_vec t xs vs ctx : Forall2 (lies leaf t) xs vs -> lies leaf (TyVec t) (XVec xs) (Val (DComposite (Unnamed vs)) ctx)
| L_tuple ts xs vs ctx : Forall3 (lies leaf) ts xs vs -> lies leaf (TyTuple ts) (XTuple xs) (Val (DComposite (Unnamed vs)) ctx)
| L_tuple_struct ts xs vs ctx : Forall3 (lies leaf) ts xs vs -> lies leaf (TyTupleStruct ts) (XTupleStruct xs) (Val (DComposite (Unnamed vs)) ctx)
| L_map t m l ctx : sorted_keys m -> Forall2 (fun kx kv => fst kv = fst kx /\ lies leaf t (snd kx) (snd kv)) m l ->
    lies leaf (TyMap t) (XMap m) (Val (DComposite (Named l)) ctx)
| L_map_char t m l ctx : sorted_keys m -> Forall (fun kx => exists c, fst kx = [c]) m -> Forall2 (fun kx kv => fst kv = fst kx /\ lies leaf t (snd kx) (snd kv)) m l ->
    lies leaf (TyMapChar t) (XMap m) (Val (DComposite (Named l)) ctx)
| L_struct fs ds l ctx : Forall3 (fun ft nx kv => fst nx = fst ft /\ fst kv = fst ft /\ lies leaf (snd ft) (snd nx) (snd kv)) fs ds l ->
    lies leaf (TyStruct fs) (XStruct ds) (Val (DComposite (Named l)) ctx)
| L_enum_unit vs n ctx : In (n, VsUnit) vs -> lies leaf (TyEnum vs) (XEnum n VsUnit) (Val (DVariant n (Unnamed [])) ctx)
| L_enum_tuple vs n ts xs l ctx : In (n, VsTuple ts) vs -> Forall3 (lies leaf) ts xs l ->
    lies leaf (TyEnum vs) (XEnum n (VsTuple xs)) (Val (DVariant n (Unnamed l)) ctx)
| L_enum_struct vs n fs ds l ctx : In (n, VsStruct fs) vs ->
    Forall3 (fun ft nx kv => fst nx = fst ft /\ fst kv = fst ft /\ lies leaf (snd ft) (snd nx) (snd kv)) fs ds l ->
    lies leaf (TyEnum vs) (XEnum n (VsStruct ds)) (Val (DVariant n (Named l)) ctx).

(** All parts are in place; or only some are, and the rest is read in any way. *)
Definition laid_out {T} : ty -> data -> value T -> Prop := lies scalar.
Definition laid_or_read {T} : ty -> data -> value T -> Prop := lies (fun _ => True).
