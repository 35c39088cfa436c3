from addp import add
add("C94","Complete rules of to_value","For every type of the universe and every datum of it, to_value succeeds, and with exactly the value that one set of rules gives: scalars keep their kind (integers keep the sign and lose the width), units become empty composites, bytes, sequences and tuples unnamed composites, maps and structs named composites in the same order, options and enum variants variants of the same name, newtypes composites with one field; values of this crate are spelt out, with variants as maps of name and values, bit sequences under the reserved key and 256-bit integers as lists of bytes.",
 "all types, all data of them","types and data nest without bound",
 ["src/serde_impls/serializer.rs","src/serde_impls/serialize.rs","src/lib.rs:to_value"],
 "hypotheses: well_named (rustc guarantees it), data_of (the datum is of the type)",
 """* C94 (`Props_ToValue.v`, `Spec_ToValue.v`, `ToValueFacts.v`): inductive rules; soundness and totality by induction on the type.
""",[])
add("C95","Data of one Rust type read as another","Data written with to_value as one type and read with from_value as another: whenever the types fit (integers only get wider, structs gain only optional fields and may lose or reorder fields, enums only gain variants, chars become strings, tuples and byte buffers sequences, structs maps, tuples the fields of a struct by position, a newtype variant a struct variant, anything but an option a newtype around itself, and this inside any nesting) it never fails, and the result is the only one the conversion rules allow. A type need not fit itself: newtypes do not come back.",
 "all pairs of types that fit, all data","pairs of types nest without bound",
 ["src/lib.rs:to_value","src/lib.rs:from_value","src/serde_impls/serializer.rs","src/serde_impls/deserializer.rs"],
 "conversion rules are sufficient, not necessary (the exact answer for one pair is C94 followed by C93)",
 """* C95 (`Props_Convert.v`, `Spec_Convert.v`, `ConvertFacts.v`): rules for single data and a relation between types; induction on the target type,
  through the rules of C93 and C94.
""",[])
