from addp import add
add("C87","Memory reserved by reading documents","Reading a Value from a document of another format reserves, before looking at the items of a list or the values of a map, room for as many as the format announces; the announced sizes never change the result. If no list announces more than it has, no more is reserved altogether than there are items, whether reading succeeds or fails; every single reservation is an announced size. But nothing else limits it: a few bytes of a format with length prefixes can make it reserve any amount (bound refuted). Values of this crate announce honestly: reading a Value from one reserves less than the number of values inside; for named fields it is one too few (so 'enough' is refuted).",
 "all documents, announced sizes and points where the input breaks off","every document, every announced size, every point of failure",
 ["src/serde_impls/deserialize.rs:CompositeVisitor","src/serde_impls/bitvec_helpers.rs:MapOrBitSeqVisitor","src/serde_impls/deserializer.rs:deserialize_any"],
 "an instrumented reader over documents that announce sizes and may break off, proved to give the results of Serde.v; the log holds the arguments of Vec::with_capacity for lists of values; serde's own capped reservations (Vec<bool>, String) and the growth of vectors by push are not logged. That size hints are asked when they are is read off the code, that serde's SeqDeserializer and MapDeserializer announce what is left is their documented behaviour",
 """* C87 (`Props_SerdeAlloc.v`, `SerdeAlloc.v`, `Spec_SerdeAlloc.v`): documents with announced sizes and breaking-off points; a reader with a log of
  reservations; equal results to `Serde.v` and the bounds by induction on the document; values of the crate as such documents (`offer`).
""",[("| `Serde.v` |","| `SerdeAlloc.v` | `deserialize.rs`, `bitvec_helpers.rs` with a log of the capacities they reserve |")])
