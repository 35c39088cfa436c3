from addp import add
add("C93","Complete rules of from_value","For every type of the universe (booleans, integers, chars, strings, units, byte buffers, options, sequences, tuples, maps, unit, newtype and tuple structs, structs, enums, and the crate's own Value, Composite, Variant and Primitive, nested in any way) from_value succeeds exactly when one set of rules allows it and with exactly the data the rules give; the rules never allow two answers, and where they allow none the call fails. The same holds for reading from a Composite, a Variant or a Primitive directly. A bit sequence can be read only as a Value, a Composite or a struct all of whose fields other than one with the reserved name are optional.",
 "all types, all values, all results","types nest without bound, and what a type accepts depends on where it stands",
 ["src/serde_impls/deserializer.rs","src/serde_impls/deserialize.rs","src/lib.rs:from_value"],
 "hypothesis well_named: no struct with two fields of one name, no enum with two variants of one name, which rustc guarantees",
 """* C93 (`Props_Reads.v`, `Spec_Reads.v`, `ReadsFacts.v`): inductive rules over places, written without hints and visitors; both directions by
  induction on the type, with one lemma per type constructor.
""",[])
