from addp import add
add("C99","The crate's own expects never panic","Decoding (to a value or to the fields of a composite) never unwraps a missing field name, finding the single field of a wrapper never unwraps a missing field, and deserializing an option never pops from nothing: for every type registry (however broken), every input and every value the call runs to its answer. Shifting the locations of a custom parser's error never overflows if the parser locates its errors in the text it was given (and can overflow if it does not: refuted).",
 "all registries, types, bytes, values, custom parsers and texts","the registry is given by the user and may mix named and unnamed fields in ways no test has; panics hide in rare shapes",
 ["src/scale_impls/decode.rs:visit_composite","src/scale_impls/encode.rs:find_single_entry_with_same_repr","src/serde_impls/deserializer.rs:deserialize_option","src/string_impls/from_string.rs:parse_value"],
 "ExactSizeIterator::len of the resolver is trusted to be the number of items; panics inside dependencies and user code are not modelled; the other expects are C70 and C86, capacity overflow is C73 and C87",
 """* C99 (`Props_Panics.v`, `Panics.v`): the functions that contain an `expect` or an offset addition, written again with results `Panic | Undefined | Ran`; proved
  equal to `Ran` of the functions of `Decode.v`, `Encode.v`, `Serde.v` and `Parse.v` by induction on the fuel and on the field lists.
""",[])
d=open('/verif/DESIGN.md').read()
d=d.replace("| `MapShared.v` |","| `Panics.v` | the functions of `decode.rs`, `encode.rs`, `deserializer.rs`, `from_string.rs` that contain an `expect` or add offsets, with panics as outcomes |\n| `MapShared.v` |",1)
open('/verif/DESIGN.md','w').write(d)
