(** * Spec_ToValue: which value [to_value] makes of data, for every type at once (C94).

    Rules for each type, written down without looking at serializers.  [Forall3] and the naming conditions are those of Spec_Reads. *)
From Verif Require Import Base Value Scale Spec_Scale Serde Spec_Serde Spec_Maps Spec_Reads.

(** Data of a type, as Rust's type checker admits it. *)
Inductive data_of : ty -> data -> Prop :=
| D_bool b : data_of TyBool (XBool b)
| D_int sg w z : int_range sg w z -> data_of (TyInt sg w) (XInt z)
| D_char c : data_of TyChar (XChar c)
| D_string s : data_of TyString (XString s)
| D_unit : data_of TyUnit XUnit
| D_unit_struct : data_of TyUnitStruct XUnitStruct
| D_bytes bs : Forall (fun b => (b < 256)%N) bs -> data_of TyBytes (XBytes bs)
| D_none t : data_of (TyOption t) XNone
| D_some t x : data_of t x -> data_of (TyOption t) (XSome x)
| D_vec t xs : Forall (data_of t) xs -> data_of (TyVec t) (XVec xs)
| D_tuple ts xs : Forall2 data_of ts xs -> data_of (TyTuple ts) (XTuple xs)
| D_tuple_struct ts xs : Forall2 data_of ts xs -> data_of (TyTupleStruct ts) (XTupleStruct xs)
| D_map t m : sorted_keys m -> Forall (fun kx => data_of t (snd kx)) m -> data_of (TyMap t) (XMap m)
| D_map_char t m : sorted_keys m -> Forall (fun kx => (exists c, fst kx = [c]) /\ data_of t (snd kx)) m -> data_of (TyMapChar t) (XMap m)
| D_newtype t x : data_of t x -> data_of (TyNewtype t) (XNewtype x)
| D_struct fs ds : Forall2 (fun ft nx => fst nx = fst ft /\ data_of (snd ft) (snd nx)) fs ds -> data_of (TyStruct fs) (XStruct ds)
| D_enum_unit vs n : In (n, VsUnit) vs -> data_of (TyEnum vs) (XEnum n VsUnit)
| D_enum_newtype vs n t x : In (n, VsNewtype t) vs -> data_of t x -> data_of (TyEnum vs) (XEnum n (VsNewtype x))
| D_enum_tuple vs n ts xs : In (n, VsTuple ts) vs -> Forall2 data_of ts xs -> data_of (TyEnum vs) (XEnum n (VsTuple xs))
| D_enum_struct vs n fs ds : In (n, VsStruct fs) vs -> Forall2 (fun ft nx => fst nx = fst ft /\ data_of (snd ft) (snd nx)) fs ds ->
    data_of (TyEnum vs) (XEnum n (VsStruct ds))
| D_value v : data_of TyValue (XValue v)
| D_composite c : data_of TyComposite (XComposite c)
| D_variant n c : data_of TyVariant (XVariant n c)
| D_prim p : data_of TyPrim (XPrim p).

(** Values made of [Value]s: contexts go; variants become named composites with the entries name and values, bit sequences
    named composites with the reserved key, 256-bit integers lists of their bytes. *)
Inductive spelt {T} : vdef (value T) -> value unit -> Prop :=
| P_prim p : bytes_in p = None -> spelt (DPrim p) (primitive p)
| P_256 p b : bytes_in p = Some b -> spelt (DPrim p) (unnamed_composite (map vu128 b))
| P_bits b : spelt (DBits b) (named_composite [(reserved_key, unnamed_composite (map vbool b))])
| P_composite c c' : spelt_fields c c' -> spelt (DComposite c) (without_context (DComposite c'))
| P_variant n c c' : spelt_fields c c' ->
    spelt (DVariant n c) (named_composite [(name_key, vstring n); (values_key, without_context (DComposite c'))])
with spelt_fields {T} : composite (value T) -> composite (value unit) -> Prop :=
| PF_unnamed l l' : spelt_list l l' -> spelt_fields (Unnamed l) (Unnamed l')
| PF_named l l' : spelt_list (map snd l) (map snd l') -> map fst l' = map fst l -> spelt_fields (Named l) (Named l')
with spelt_list {T} : list (value T) -> list (value unit) -> Prop :=
| PL_nil : spelt_list [] []
| PL_cons d ctx w l l' : spelt d w -> spelt_list l l' -> spelt_list (Val d ctx :: l) (w :: l').

(** ** The rules *)
Inductive writes : ty -> data -> value unit -> Prop :=
(* scalars: integers keep their sign, not their width *)
| W_bool b : writes TyBool (XBool b) (vbool b)
| W_unsigned w n : writes (TyInt false w) (XInt (Z.of_N n)) (vu128 n)
| W_signed w z : writes (TyInt true w) (XInt z) (vi128 z)
| W_char c : writes TyChar (XChar c) (vchar c)
| W_string s : writes TyString (XString s) (vstring s)
| W_unit : writes TyUnit XUnit (unnamed_composite [])
| W_unit_struct : writes TyUnitStruct XUnitStruct (unnamed_composite [])
| W_bytes bs : writes TyBytes (XBytes bs) (unnamed_composite (map vu128 bs))
(* options *)
| W_none t : writes (TyOption t) XNone (unnamed_variant (s2l "None") [])
| W_some t x v : writes t x v -> writes (TyOption t) (XSome x) (unnamed_variant (s2l "Some") [v])
(* sequences, tuples, maps: all keep their order *)
| W_vec t xs vs : Forall2 (writes t) xs vs -> writes (TyVec t) (XVec xs) (unnamed_composite vs)
| W_tuple ts xs vs : Forall3 writes ts xs vs -> writes (TyTuple ts) (XTuple xs) (unnamed_composite vs)
| W_tuple_struct ts xs vs : Forall3 writes ts xs vs -> writes (TyTupleStruct ts) (XTupleStruct xs) (unnamed_composite vs)
| W_map t m l : Forall2 (fun kx kv => fst kv = fst kx /\ writes t (snd kx) (snd kv)) m l -> writes (TyMap t) (XMap m) (named_composite l)
| W_map_char t m l : Forall (fun kx => exists c, fst kx = [c]) m ->
    Forall2 (fun kx kv => fst kv = fst kx /\ writes t (snd kx) (snd kv)) m l -> writes (TyMapChar t) (XMap m) (named_composite l)
(* newtypes and structs *)
| W_newtype t x v : writes t x v -> writes (TyNewtype t) (XNewtype x) (unnamed_composite [v])
| W_struct fs ds l : Forall3 (fun ft nx kv => fst nx = fst ft /\ fst kv = fst ft /\ writes (snd ft) (snd nx) (snd kv)) fs ds l ->
    writes (TyStruct fs) (XStruct ds) (named_composite l)
(* enums *)
| W_enum_unit vs n : In (n, VsUnit) vs -> writes (TyEnum vs) (XEnum n VsUnit) (unnamed_variant n [])
| W_enum_newtype vs n t x v : In (n, VsNewtype t) vs -> writes t x v -> writes (TyEnum vs) (XEnum n (VsNewtype x)) (unnamed_variant n [v])
| W_enum_tuple vs n ts xs l : In (n, VsTuple ts) vs -> Forall3 writes ts xs l -> writes (TyEnum vs) (XEnum n (VsTuple xs)) (unnamed_variant n l)
| W_enum_struct vs n fs ds l : In (n, VsStruct fs) vs ->
    Forall3 (fun ft nx kv => fst nx = fst ft /\ fst kv = fst ft /\ writes (snd ft) (snd nx) (snd kv)) fs ds l ->
    writes (TyEnum vs) (XEnum n (VsStruct ds)) (named_variant n l)
(* the types of this crate *)
| W_value v w : spelt (vdef_of v) w -> writes TyValue (XValue v) w
| W_composite c w : spelt (DComposite c) w -> writes TyComposite (XComposite c) w
| W_variant n c w : spelt (DVariant n c) w -> writes TyVariant (XVariant n c) w
| W_prim p w : spelt (T := unit) (DPrim p) w -> writes TyPrim (XPrim p) w.
