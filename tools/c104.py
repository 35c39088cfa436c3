from addp import add
add("C104","Text that is not finished","When a text is refused, the error says whether anything appended could make it a value: some continuation makes it one exactly when the error is located at the end of the text (for a wrong escape code in a char: when the text ends in the backslash), or no value was found where the text has only the beginning of a variant's name; in all other cases every longer text is refused for the same reason at the same place. A value read with text left behind it is read from every longer text, too. The location alone does not tell either way (refuted).",
 "all texts, all texts appended","the claim is about all continuations of all refused texts, and about the existence of one; tests try some",
 ["src/string_impls/from_string.rs:parse_value","src/string_impls/from_string.rs:parse_variant","src/string_impls/from_string.rs:parse_char","src/string_impls/from_string.rs:parse_number"],
 "without custom parsers",
 """* C104 (`Props_Incomplete.v`, `Spec_Incomplete.v`, `IncompleteFacts.v`): the parser is run on a text and on the text with something appended, and by induction on the
  fuel the two runs agree until the first reaches its end (`kept`); for the converse, by induction on the fuel each parser that stopped at the end of the text leaves the
  beginning of something in the grammar, whose completeness (C06) gives the value.
""",[])
