from addp import add
add("C108","The text of a value identifies it","Two values whose texts coincide, in the same or in different layouts, are the same value up to contexts and the type of nonnegative integers, and encode alike at every type. Of values decoded at one type, those with equal texts are equal outright, and were read from equally many bytes, the same ones if the type has no bit sequences. Displaying what a text reads as gives its normal form, and two texts have the same normal form exactly if they denote the same value.",
 "all pairs of values, layouts, registries of speakable types, types and byte strings","the claim compares any two values: a test can show only that particular texts differ",
 ["src/string_impls/to_string.rs:fmt_value","src/string_impls/from_string.rs:parse_value","src/scale_impls/decode.rs:decode_value_as_type","src/scale_impls/encode.rs:encode_value_as_type","src/lib.rs:Value"],
 "printable values (C04: no 256-bit integers, text of Unicode scalar values); _refuted: texts of data decoded at different types can coincide where the bytes do not",
 """* C108 (`Props_Ident.v`, `IdentFacts.v`): the roundtrip of C04 read as injectivity; for decoded values the type fixes what the text leaves open (`printed_alike`, a simultaneous induction over two
  encodings), and the unique encoding of C23 fixes the bytes.
""",[])
