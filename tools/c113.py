from addp import add
add("C113","Rust data edited where they lie, in values and in text","A value made of Rust data with to_value holds every part (field, element, map entry, option content, field of an enum variant) at its place, and still does after being printed in any layout and parsed. Whatever value is put in the place of a part: if from_value reads it as y' at the part's type, the whole is read as the data with y' as that part and nothing else changed; any history of such edits is read as the data edited alike. In text: the part has its piece of the text, and any text which is parsed and read as y' can be put there. A value from which the data are merely read (fields in another order) does not have this property (refuted).",
 "all types that round trip (C40) without Value-like parts, all data, paths, replacements (values or texts), layouts and histories of edits","tests edit one text by hand; that an edit anywhere changes exactly that part of the data read needs an induction over types and over the grammar of text",
 ["src/lib.rs:to_value","src/lib.rs:from_value","src/at.rs:at","src/lib.rs:stringify","src/string_impls/from_string.rs","src/string_impls/to_string.rs","src/serde_impls/serializer.rs","src/serde_impls/deserializer.rs"],
 "newtypes do not round trip (C95_same_type_refuted) and are left out",
 """* C113 (`Spec_DataEdit.v`, `DataEditFacts.v`, `Props_DataEdit.v`): a relation says that data lie in a value with all parts; induction on types: `to_value` establishes it (from the rules of C94), unsigned forms keep it (C68), and it implies the rules of C93; one step of a path exchanges one part. C105 for text.
""",[])
