from addp import add
add("C97","Texts of deserializer errors","Every refusal the crate's own deserializer makes carries exactly one text determined by the value and by what was asked for: both lengths of a tuple mismatch are the true ones, the named unit struct or enum is the one asked for, bits are called bits, and byte conversion fails for the reason given, at the first value that is no byte; only the claim that values are non-numeric is untrue for signed and 256-bit numbers (refuted). The text that a map must contain name and values is given exactly to maps that would be a variant but lack one of them.",
 "all values, all requests, all names; all documents","values and documents nest without bound",
 ["src/serde_impls/deserializer.rs:DeserializerError","src/serde_impls/deserializer.rs:Deserializer for ValueDef","src/serde_impls/deserializer.rs:Deserializer for Composite","src/serde_impls/deserialize.rs:VariantVisitor::visit_map","src/serde_impls/serializer.rs:SerializerError"],
 "texts made by serde itself (invalid_type, missing_field, ..) are not modelled",
 """* C97 (`Props_SerdeTexts.v`, `Spec_SerdeTexts.v`, `SerdeTexts.v`): the deserializer with texts, equal to the one of Serde.v when the texts are erased; a
  table of texts as an inductive relation, both directions by cases; the variant text over the documents of C96.
""",[])
