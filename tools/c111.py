from addp import add
add("C111","Reading Rust data back after reordering its fields","Data of a Rust type is written with to_value, the named fields of the value (struct fields, map entries, fields of enum variants) are put into another order at any depth and its contexts changed, and the result is read with from_value as the same type or any type that fits it (C95). The data read is the same as without the reordering. Types that read named fields by position (a struct read as a tuple) and Value itself do see the order.",
 "all pairs of fitting types of the serde universe, all data, all reorderings at any depth, all contexts","tests reorder one flat struct; that nested structs, maps, enum variants, newtypes and options stay readable in every order needs an induction over types",
 ["src/serde_impls/deserializer.rs:impl Deserializer for Value","src/serde_impls/deserializer.rs:impl Deserializer for Composite","src/serde_impls/serializer.rs:ValueSerializer"],
 "the same-type case needs fits t t, which excludes Value fields and types that do not round trip (C41)",
 """* C111 (`Spec_Shuffled.v`, `ShuffleFacts.v`, `Props_Shuffled.v`): the induction of C95 over the reading type, with a reordering between `writes` (C94) and `reads` (C93); keys of what was written are distinct,
  so looking up by name and collecting into maps do not see the order.
""",[])
