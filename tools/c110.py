from addp import add
add("C110","Order and names of fields at any depth","Take a value that was decoded at a type and rearrange it anywhere inside: put the named fields of structs and variants into another order, leave out their names keeping their order (not that of the only field of a struct), give integers with the other sign of their type, bit sequences as lists of booleans or of 0 and 1, change all contexts. It is still encoded at the type, to the bytes it came from. In particular SCALE bytes survive the way through JSON whatever is done to the order of the entries of its objects (types without enums, characters, integers above 64 bits and fields named like the bit sequence marker). Of values that were not decoded at the type, and of the name of an only field, this is not true.",
 "all registries for which encoding undoes decoding, types, byte strings and rearrangements at any depth","tests reorder the fields of single flat structs; that no inner struct, variant, list or wrapper type is affected needs an induction over types, values and the encoder's guesses",
 ["src/scale_impls/encode.rs:encode_composite","src/scale_impls/encode.rs:encode_variant","src/scale_impls/encode.rs:encode_composite_fields","src/scale_impls/decode.rs:decode_value_as_type","src/serde_impls/deserialize.rs:Deserialize for Value"],
 "encode_composite_fields is the field lookup of scale-encode 0.10 as modelled for C32; rt_ok is the registry condition of C24",
 """* C110 (`Spec_Rearranged.v`, `EncodeReorder.v`, `JsonReorder.v`, `Props_Rearranged.v`): the induction of C24 (`complete_mut`), with every rearrangement of the value in its conclusion; lists that the encoder
  might take for one of their own items keep their "wide" shape under rearrangement. JSON: by induction on the value every reordering of its document means (C75) a rearrangement of it.
""",[])
