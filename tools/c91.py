from addp import add
add("C91","Decode errors are true, and what is wrong is reported","If decoding bytes as a type fails, then reading the bytes one comes, past items that are all present and well formed, to an item where what the error says is the case: the registry does not know the type or fails to resolve it, the bytes end before the item does, a bool is neither 0 nor 1, a character is no Unicode scalar value, a string is not UTF-8, an enum has no variant with the index, a length prefix is not a compact integer in shortest form and in range, a type inside a compact type is no unsigned integer, or there are more bits than can be stored. Conversely whatever is wrong at such an item is what decoding reports, so at most one thing is wrong with an input and nothing with one that decodes. Likewise for decoding fields.",
 "all registries, types, byte strings and dependency behaviours","all byte strings and registries, recursive ones included",
 ["src/scale_impls/decode.rs:decode_value_as_type","src/scale_impls/decode.rs:decode_composite_as_fields"],
 "Spec_DecodeErrors.v says per kind of error what must be wrong and how an item is reached. Error kinds are those of the model (coarse)",
 """* C91 (`Props_DecodeErrors.v`, `Spec_DecodeErrors.v`): induction on the fuel one way, on the way to the item the other.
""",[])
