from addp import add
add("C109","SCALE data as JSON","A value is serialised as JSON text and read back as a Value: what comes back is the value with contexts dropped, characters turned into strings, nonnegative integers unsigned, variants turned into maps and 256-bit integers into lists; a single integer outside -2^63..2^64 makes the whole text unreadable. Without variants, characters and 256-bit integers, what comes back encodes like the value at every type, so SCALE bytes of types without enums, characters and integers above 64 bits survive the way through JSON. An enum has to be read as a Variant; read as a Value it cannot be encoded any more, nor can a character.",
 "all values; all registries, types and byte strings","the claim is about every value and every type; it joins the serializer, the deserializer, the decoder and the encoder, which tests exercise on single values",
 ["src/serde_impls/serialize.rs:Serialize for Value","src/serde_impls/deserialize.rs:Deserialize for Value","src/scale_impls/encode.rs:encode_composite","src/scale_impls/decode.rs:decode_value_as_type"],
 "JSON is the function through_json (Spec_Json.v): serde_json with default features, from its documentation; order and duplicates of keys are kept, as in text",
 """* C109 (`Spec_Json.v`, `JsonFacts.v`, `Props_Json.v`): what JSON text keeps of a document is a function on documents; by C75 the meaning of the result is a relation, which is shown to hold for
  `json_read v` by induction (`good_any`). Re-encoding: `json_read` is C04's `unsigned_form` on values without variants and characters, and C66 encodes that alike.
""",[])
