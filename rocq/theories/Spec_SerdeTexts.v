(** * Spec_SerdeTexts: vocabulary of C97, what the deserializer says and when. *)
From Verif Require Import Base Value Spec_Value Chars Serde Spec_Texts.

(** The fields of a composite or variant. *)
Inductive has_fields {T} : vdef (value T) -> list (value T) -> Prop :=
| HF_composite c : has_fields (DComposite c) (values c)
| HF_variant n c : has_fields (DVariant n c) (values c).

(** An unsigned number that is a byte. *)
Definition is_byte {T} (v : value T) : Prop := exists n ctx, (n < 256)%N /\ v = Val (DPrim (PU128 n)) ctx.

(** [objects name d h t]: a value with the definition [d], asked for what [h] stands for (a unit struct or enum being called [name]),
    is refused with the text [t]. *)
Inductive objects {T} (name : str) : vdef (value T) -> hint -> str -> Prop :=
| O_tuple d l n a b : has_fields d l -> length l <> n -> numeral (N.of_nat (length l)) a -> numeral (N.of_nat n) b ->
    objects name d (HTuple n) (s2l "Cannot deserialize composite of length " ++ a ++ s2l " into tuple of length " ++ b)
| O_tuple_struct d l n a b : has_fields d l -> length l <> n -> numeral (N.of_nat (length l)) a -> numeral (N.of_nat n) b ->
    objects name d (HTupleStruct n) (s2l "Cannot deserialize composite of length " ++ a ++ s2l " into tuple of length " ++ b)
| O_unit d l h : has_fields d l -> l <> [] -> h = HUnit \/ h = HUnitStruct -> objects name d h (s2l "Cannot deserialize non-empty Composite into a unit value")
| O_too_big c before n ctx after : values c = before ++ Val (DPrim (PU128 n)) ctx :: after -> Forall is_byte before -> (256 <= n)%N ->
    objects name (DComposite c) HBytes (s2l "Cannot deserialize composite that is not entirely U8's into bytes (number out of range)")
| O_no_u128 c before v after : values c = before ++ v :: after -> Forall is_byte before -> (forall n ctx, v <> Val (DPrim (PU128 n)) ctx) ->
    objects name (DComposite c) HBytes (s2l "Cannot deserialize composite that is not entirely U8's into bytes (non-numeric values encountered)")
| O_bits b h what : In (h, what) [(HNewtypeStruct, s2l "a newtype struct"); (HUnit, s2l "a ()"); (HUnitStruct, s2l "the unit struct " ++ name);
    (HEnum, s2l "the enum " ++ name); (HBytes, s2l "raw bytes"); (HSeq, s2l "a sequence"); (HMap, s2l "a map")] ->
    objects name (DBits b) h (s2l "Cannot deserialize BitSequence into " ++ what)
| O_bits_tuple b n : objects name (DBits b) (HTuple n) (s2l "Cannot deserialize BitSequence into a tuple")
| O_bits_tuple_struct b n : objects name (DBits b) (HTupleStruct n) (s2l "Cannot deserialize BitSequence into a tuple struct").
