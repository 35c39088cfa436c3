from addp import add
add("C102","Editing decoded values","Each part of a decoded value (reached through structs, tuples, variants, sequences and arrays) has its own stretch of the bytes, which alone decodes to it at the type whose id it carries; valid bytes of that type put in its stead decode to the value with just that part replaced. Encoding a decoded value in which a part was replaced by another decoded value changes just that stretch, and the result decodes to the edited value; pushing an element onto a sequence changes the length in front and puts the element's bytes behind. Below a Compact the type id a part carries is not how its bytes are made (refuted).",
 "all registries, types, bytes, values, places and replacements","the part may lie anywhere in any value of any type, and its replacement may have any length; tests edit one field of one struct",
 ["src/scale_impls/decode.rs:decode_value_as_type","src/scale_impls/encode.rs:encode_composite","src/scale_impls/encode.rs:encode_variant","src/value_type.rs:Value"],
 "for registries in which decoded values re-encode (rt_ok, C24) and whose variants have different names",
 """* C102 (`Props_Edit.v`, `Spec_Edit.v`, `EditFacts.v`): a relation "this part, at a place of this type, replaced"; by induction on it the encoding relation
  splits into what is in front, the part, and what is behind; C21 and C24 carry this over to the decoder and the encoder.
""",[])
