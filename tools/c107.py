from addp import add
add("C107","Text as an editing interface for SCALE data","A value decoded from bytes is displayed. Every part at a place of the type has its place in the text, where the displayed text of the part stands. If a user puts any text of any value there that can be encoded at the part's type, the whole is again the text of one value, and that value encodes to the old bytes with exactly those of the part replaced by the new ones. The same holds for every other layout of the text.",
 "all registries of speakable types, types, byte strings, parts of the value read, and texts put in their place","the claim is about every value, every place in its text and every text a user may write there; it joins parser, printer, decoder and encoder, which tests exercise apart",
 ["src/string_impls/from_string.rs:parse_value","src/string_impls/to_string.rs:fmt_value","src/scale_impls/decode.rs:decode_value_as_type","src/scale_impls/encode.rs:encode_composite","src/lib.rs:Value"],
 "conditions of C106 and C66 (speakable); texts are of Unicode scalar values",
 """* C107 (`Props_EditText.v`, `PlaceFacts.v`, `EditTextFacts.v`, over `Spec_Edit.v` and `Spec_Splice.v`): C105 and C106 joined. That the place where the printer puts a part is the place where the
  parser reads it is proved by putting a long string there, which can stand in one place only (`one_place`); the value read from a text encodes like the value meant (`unsigned_form`, C66).
""",[])
