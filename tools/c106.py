from addp import add
add("C106","Editing with any value","When a part of a decoded value is replaced by any value that can be encoded at the part's type (not only by one of the form decoding gives), the edited value can be encoded, the bytes of the new part stand where those of the old part stood, and no other byte changes; what is read back is the old value with only that part replaced, by what the new bytes read back as. Where a list stands in two newtypes around each other this is false (refuted).",
 "all registries, types and byte strings, all parts of the value read, all values that can be encoded in their place","the claim is about every registry, every place in a value and every value put there; tests try some",
 ["src/scale_impls/decode.rs:decode_value_as_type","src/scale_impls/encode.rs:encode_composite","src/scale_impls/encode.rs:encode_variant","src/lib.rs:Value"],
 "registries as for C24 without lists in nested newtypes; types that do not wrap themselves",
 """* C106 (`Props_EditAny.v`, `EditAnyFacts.v`, over `Spec_Edit.v`): the rules of encoding (C77) are applied along the place of the part; all other parts are written as C24 says.
  The step through a newtype needs that a value is written the same way at a newtype and at its content (`through`), which fails exactly for nested lists.
""",[])
