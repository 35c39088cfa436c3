from addp import add
add("C103","Migrating data between types","A value decoded at a type of one registry is accepted by the encoder at a type of another registry whenever that type has room for everything (wider, signed or compact integers; structs with fields reordered, left out or renamed positions; enums with other indices, orders and more variants; arrays as sequences; newtypes added, nested or removed; at any depth and for recursive types), and the bytes decode there to the same data: elements go to elements in order, fields to the fields of their names, variants to the variant of their name under its new index. An integer type that does not hold all values is refused for some (refuted).",
 "all pairs of registries, all relations between their types that follow the rules, all types, bytes and values","the pair of type systems and the data are arbitrary, and both may be recursive; tests migrate one value between two types",
 ["src/scale_impls/decode.rs:decode_value_as_type","src/scale_impls/encode.rs:encode_composite","src/scale_impls/encode.rs:encode_variant","src/scale_impls/encode.rs:encode_primitive"],
 "for target registries without types that wrap themselves",
 """* C103 (`Props_Migrate.v`, `Spec_Migrate.v`, `MigrateFacts.v`): `goes d t'` lists where the values of a type may go, `migration` asks for it of all pairs of a
  relation between types (so it is coinductive in effect); by induction on the encoding relation of the source, decoded values fit the rules of C77 at the target;
  C64 gives the same data.
""",[])
