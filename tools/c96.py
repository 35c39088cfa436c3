from addp import add
add("C96","Documents with newtypes and keys of any kind","Reading a Value, Composite, Variant or Primitive from any document of a self-describing format that may wrap anything in newtypes and may use anything as a map key or variant name gives exactly what one set of rules allows: newtypes are transparent for values and composites (not for variants and primitives: refuted), keys and names are whatever reads as text (strings, chars, bytes in UTF-8), and a map with another key is refused (refuted: integer-keyed maps cannot be read). A map that starts with the reserved key is read as bits or not at all, and what follows is dropped or refused depending on the format.",
 "all documents, formats that do and do not insist on reading maps to their end","documents nest without bound",
 ["src/serde_impls/deserialize.rs:ValueDefVisitor","src/serde_impls/deserialize.rs:CompositeVisitor","src/serde_impls/deserialize.rs:VariantVisitor","src/serde_impls/deserialize.rs:PrimitiveVisitor","src/serde_impls/bitvec_helpers.rs:MapOrBitSeqVisitor"],
 "extends C75 to visit_newtype_struct, keys that are not strings and half-read maps; C96_agrees ties the second model of deserialize.rs to the first, errors included",
 """* C96 (`Props_RichDocs.v`, `Spec_RichDocs.v`, `DocRich.v`, `RichFacts.v`): deserialize.rs on documents with newtypes and arbitrary keys, equal to
  the model of Serde.v on the documents that has; both directions of the rules by structural induction on the document.
""",[])
