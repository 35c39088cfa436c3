from addp import add
add("C105","Putting one text into another","In the text of a value every part that at finds has its place: there stands a text of that part, and putting any text of any value there instead gives a text of the value with that part replaced and nothing else changed; a string or char in the form Display gives it is therefore safe at any place, whatever it contains. The one-line text of a value (with contexts, too) is made of the texts of its parts in the same way. A text that is not the text of one value can change more than the part (refuted).",
 "all texts read without error, all positions in the value read, all texts or values put there","the claim is about every text, every position in it and everything that could be put there; tests try some",
 ["src/string_impls/from_string.rs:parse_value","src/string_impls/to_string.rs:fmt_value","src/string_impls/to_string.rs:fmt_string","src/at.rs:At"],
 "without custom parsers or formatters; the one-line styles",
 """* C105 (`Props_Splice.v`, `Spec_Splice.v`, `SpliceFacts.v`): the parser is replaced by the grammar (C06), the formatter by the one-line layout (C59); by induction on the
  position, the derivation of the whole contains one of the part, and stays one when another derivation stands there.
""",[])
