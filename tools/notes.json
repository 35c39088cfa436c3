{
 "C07": {
  "note": "start_loc and opener locations proved in range; the claim for end_loc is false and refuted by witnesses"
 },
 "C04": {
  "note": "exactly the values satisfying text_ok; the rest is C05"
 },
 "C05": {
  "note": "the unrestricted claim is false; refuted with witnesses and for the whole families"
 },
 "C12": {
  "note": "for every sink (a writer state machine), any failure point"
 },
 "C13": {
  "note": "every list of formatters, sink and style"
 },
 "C16": {
  "note": "for every decoder and hash function; the base58 crate itself is replaced by its mathematical definition in C16_addresses_read_back; the claim that only account ids are read is refuted for every hash function"
 },
 "C17": {
  "note": "true for ASCII text, false in general (refuted); C17_general_cursor gives the exact behaviour"
 },
 "C24": {
  "note": "under rt_ok (distinct names, lists inside two or more newtypes only with items that cannot be mistaken for lists, ...) exact without bit sequences, exact up to padding bits with them; if the decoder reads length prefixes as u64 the value's lists must be shorter than 2^32; each restriction shown necessary by a refutation; C24_two_newtypes says what decides for lists inside two newtypes"
 },
 "C25": {
  "note": "for registries satisfying reg_ok and values whose lengths fit the prefixes; refuted without reg_ok"
 },
 "C26": {
  "note": "proved for composites, bit sequences and primitives up to 128 bits; refuted for variants, 256-bit primitives and field-wise encoding"
 },
 "C30": {
  "note": "equality refuted for i256 and beyond the capacity limit; proved otherwise"
 },
 "C31": {
  "note": "with the exact condition for composites, bits and primitives up to 128 bits; variants and U256 never succeed on such types"
 },
 "C32": {
  "note": "iff for structs of two or more named fields and for enum variants; refuted for structs with a single named field"
 },
 "C33": {
  "note": "one theorem per kind of value"
 },
 "C49": {
  "note": "registries whose variants have at most 100,000,000 fields; variant names are not part of the path (refuted)"
 },
 "C39": {
  "note": "exact condition (iff); the unrestricted claim is false for 256-bit integers and the reserved key"
 },
 "C40": {
  "note": "for the reified universe of types in Serde.v without newtypes; newtypes are C41"
 },
 "C41": {
  "note": "the expected round trip is false: refuted for whole families of types"
 },
 "C45": {
  "note": "refutes the unrestricted form of C39"
 },
 "C52": {
  "note": "documents reified in Serde.v (doc); formats that are not self-describing or lossless are not modelled"
 },
 "C55": {
  "note": "refutes what a reader of the API would expect; general over values"
 },
 "C47": {
  "note": "relative to an abstract expression parser with the stated properties of rustc's; hygiene not modelled; recursion limit: C82"
 },
 "C60": {
  "note": "into a String; the texts of scale-decode errors and of type ids are parameters; printability refuted"
 },
 "C61": {
  "note": "the claim that the number is a character position is refuted"
 },
 "C62": {
  "note": "no assumption on the custom parsers; shifting of embedded opener positions refuted"
 },
 "C63": {
  "note": "visits = calls of encode_as_type_to on the value or one inside it, counted by an instrumented encoder proved equal to the plain one; the polynomial claim is refuted for a whole family"
 },
 "C64": {
  "note": "registries whose structs and variants name all fields or none; lengths within the u32 prefix; data equality is the independent relation of Spec_Same.v"
 },
 "C65": {
  "note": "encode_l is the encoder with paths, equal to the encoder after erasing them; which steps of scale-encode attach a location is from memory of that crate"
 },
 "C66": {
  "note": "composition of the text and SCALE models; registries as in C24, without 256-bit integers or bool-like variant names"
 },
 "C67": {
  "note": "Rust types, derived Encode and TypeInfo are the independent spec Spec_Rust.v (finite types: no recursion, no generics left open); composition of the decode, encode and serde models"
 },
 "C68": {
  "note": "composition of the text, serde and SCALE models; chars are Unicode scalars and no enum variant has a bool-like bare name (Spec_TextData.sayable)"
 },
 "C69": {
  "note": "composition over the same serde model as C39-C57; the targets are given by iff"
 },
 "C70": {
  "note": "state machines of both compound serializers; Vec pushes and Option::take modelled literally; a call returns a result or panics"
 },
 "C71": {
  "note": "serde's Content, ContentVisitor and the derived code are modelled from serde's documented behaviour (serde itself is not in the sandbox); the crate's part is the event sent for deserialize_any"
 },
 "C72": {
  "note": "rustc (lexer and expression parser) is a parameter, as in C47; that literals agree is a hypothesis shown satisfiable by the demonstration parser"
 },
 "C73": {
  "note": "the decoders instrumented with a log of Vec::with_capacity calls, proved to return the same results; other allocations (strings, bits, error reports) are made for data already read and are not logged"
 },
 "C74": {
  "note": "constants given by a weight certificate (Spec_Size.weights), proved to exist for every finite registry without self-containing types (C74_weights_exist); plain decoder"
 },
 "C75": {
  "note": "documents are reified events (doc in Serde.v); a map that starts with the reserved key must have no other entry (no_leftovers), since what a half-read map does is up to the format; visit_newtype_struct is not modelled (deserialize_any of formats does not call it)"
 },
 "C76": {
  "note": "BTreeMap; keys compared by code points (= bytewise UTF-8)"
 },
 "C77": {
  "note": "wrappers must be well founded (true of Rust types); primitives hold what Rust can hold; scale-encode's part is modelled from its documented behaviour"
 },
 "C78": {
  "note": "reads = calls of next on the token stream, those inside yap's combinators included (yap modelled from its documentation); a call of a custom parser counts as w"
 },
 "C79": {
  "note": "the plain decoder instrumented with counters of calls and of levels of recursion, proved to return the same results; constants given by certificates (call_weights, ranks), proved to exist for every finite registry without self-containing types (C79_ranks_exist, C79_weights_exist); work inside scale-decode's leaf decoders is not counted"
 },
 "C80": {
  "note": "without custom formatters and context printers (what those write is up to them); write_char counted as one call"
 },
 "C81": {
  "note": "Model of the derived PartialEq and Clone (Equality.v), stated with the labels and places of Spec_Value. C81_reflexive_refuted: not reflexive for contexts that are not; C81_alike_but_unequal_refuted: values that print and encode the same need not be equal. scale_bits::Bits is assumed to compare as the list of its bits."
 },
 "C82": {
  "note": "MacroDepth.v counts the nested expansions rule by rule; Spec_MacroDepth.v reads the number off the grammar. C82_any_size_refuted: no limit is enough for every input of the grammar. The number of levels that std's vec! takes (vd) and of the macros in the user's expressions (ud) are parameters; how rustc counts levels is an assumption stated in MacroDepth.v."
 },
 "C83": {
  "note": "the tracing decoder instrumented with counters of calls, recursion levels, path segments copied by Path::at and values copied by vals.clone(), proved to return the same results; copies of names and type ids and growth of vectors are not counted"
 },
 "C84": {
  "note": "relational (bisimulation) theorems; renumbering and unneeded types as corollaries, with a recursive type and its unrolling as an example of ids that are alike without being a renumbering. The name (path) of a type is not part of the model: scale-value never looks at it"
 },
 "C85": {
  "note": "scale-decode's field iterator is modelled from memory of its documentation: after an item fails it offers nothing more (C85_trait_failure); the other possibility, that it offers the item again, is covered by C85_trait_failure_again. C85_decode_as_fields and C85_no_panic hold for both and for any way of skipping"
 },
 "C86": {
  "note": "byte-level models proved equal to the character-level ones of Hex.v, Ss58.v and Fmt.v; str::find, is_char_boundary, slicing and from_utf8_unchecked are modelled as std documents them; the base58 crate and the hash are parameters (instance: BLAKE2b-512)"
 },
 "C87": {
  "note": "an instrumented reader over documents that announce sizes and may break off, proved to give the results of Serde.v; the log holds the arguments of Vec::with_capacity for lists of values; serde's own capped reservations (Vec<bool>, String) and the growth of vectors by push are not logged. That size hints are asked when they are is read off the code, that serde's SeqDeserializer and MapDeserializer announce what is left is their documented behaviour"
 },
 "C88": {
  "note": "a step function per call, folded over the history; the specification `settled` says 'the last call that sets it' without reference to the fold"
 },
 "C89": {
  "note": "reading a newtype hands the same parts to the content; every hint but two is answered alike by the value and by its parts"
 },
 "C90": {
  "note": "Spec_Errors.v says per kind of error what must be wrong; wrapper types are looked through. Error kinds are those of the model (coarse)"
 },
 "C91": {
  "note": "Spec_DecodeErrors.v says per kind of error what must be wrong and how an item is reached. Error kinds are those of the model (coarse)"
 },
 "C92": {
  "note": "ParseState.v writes the recursive part of the parser again with a memory threaded through; the built-in parsers are shared with Parse.v"
 },
 "C93": {
  "note": "hypothesis well_named: no struct with two fields of one name, no enum with two variants of one name, which rustc guarantees"
 },
 "C94": {
  "note": "hypotheses: well_named (rustc guarantees it), data_of (the datum is of the type)"
 },
 "C95": {
  "note": "conversion rules are sufficient, not necessary (the exact answer for one pair is C94 followed by C93)"
 },
 "C96": {
  "note": "extends C75 to visit_newtype_struct, keys that are not strings and half-read maps; C96_agrees ties the second model of deserialize.rs to the first, errors included"
 },
 "C97": {
  "note": "texts made by serde itself (invalid_type, missing_field, ..) are not modelled"
 },
 "C98": {
  "note": "formatters that panic or call the builder again are not modelled"
 },
 "C99": {
  "note": "ExactSizeIterator::len of the resolver is trusted to be the number of items; panics inside dependencies and user code are not modelled; the other expects are C70 and C86, capacity overflow is C73 and C87"
 },
 "C100": {
  "note": "scale-encode and scale-decode are modelled; the tracing decoder follows by C30"
 },
 "C101": {
  "note": "the two errors for missing input are a coarse model of scale-decode's (NotEnoughInput and CodecError)"
 },
 "C102": {
  "note": "for registries in which decoded values re-encode (rt_ok, C24) and whose variants have different names"
 },
 "C103": {
  "note": "for target registries without types that wrap themselves"
 },
 "C104": {
  "note": "without custom parsers"
 },
 "C105": {
  "note": "without custom parsers or formatters; the one-line styles"
 },
 "C106": {
  "note": "registries as for C24 without lists in nested newtypes; types that do not wrap themselves"
 },
 "C107": {
  "note": "conditions of C106 and C66 (speakable); texts are of Unicode scalar values"
 },
 "C108": {
  "note": "printable values (C04: no 256-bit integers, text of Unicode scalar values); _refuted: texts of data decoded at different types can coincide where the bytes do not"
 },
 "C109": {
  "note": "JSON is the function through_json (Spec_Json.v): serde_json with default features, from its documentation; order and duplicates of keys are kept, as in text"
 },
 "C110": {
  "note": "encode_composite_fields is the field lookup of scale-encode 0.10 as modelled for C32; rt_ok is the registry condition of C24"
 },
 "C111": {
  "note": "the same-type case needs fits t t, which excludes Value fields and types that do not round trip (C41)"
 },
 "C112": {
  "note": "paths do not go into byte buffers, Value, Composite, Variant and Primitive fields; reading back the changed data as the same type needs a type that round trips (C40) or fits itself (C95)"
 },
 "C113": {
  "note": "newtypes do not round trip (C95_same_type_refuted) and are left out"
 }
}