# Formal model of paritytech/scale-value (Rocq / Coq 8.16.1)

## 0. Ground rules

* Everything lives in `/verif/rocq/theories` (logical name `Verif`), Coq standard library only.
* The model is executable Gallina.  Each definition cites `file:lines` in `/repo`; simplifications are stated there.
* Property theorems live in `Props_*.v` files that only contain `Theorem`, `Proof. exact lemma. Qed.`,
  non-vacuity `Example`s and `Print Assumptions`.  Lemmas live in `*Facts.v`.
* Statements that the code violates are recorded as `..._refuted` (with a concrete witness) next to the strongest
  positive theorem.

## 1. Trusted base

1. Coq 8.16.1 kernel.  `Print Assumptions` is printed below every property theorem; see section 6.
2. The reading of `/repo` recorded in the comments of the model.
3. The behaviour of dependencies that are not in the sandbox.  They are modelled from their documentation and from
   the way `/repo` uses and tests them:
   * `yap::StrTokens` (a cursor over a `str`; `one_of!` restores the location after a `None`;
     `sep_by_err` restores the location that preceded the separator/item when the item parser fails, and the location
     that preceded the separator when the separator fails - `/repo`'s own test `custom_parsers` checks this).
   * `scale-type-resolver` (`resolve_type` calls the visitor method for the kind of type found, `visit_not_found` -
     treated as "unhandled" by `visitor::new` - or fails).
   * `scale-decode` (`decode_with_visitor`, `Composite`/`Tuple`/`Sequence`/`Array`/`Variant`/`Str`/`BitSequence`).
   * `scale-encode` (`EncodeAsType` of primitives, `[T]`, `Bits`; `Composite`, `Variant`).
   * `scale-bits`, `parity-scale-codec` (`Compact`, little-endian integers, `str`).
   * `serde` std impls and derive output, `base58`.  `blake2` is an arbitrary function parameter (`Blake2.v` has
     BLAKE2b-512 itself as one instance, used for the crate's own ss58 tests).
   Where a dependency's behaviour is uncertain it is a *parameter* of the model (`ext` record) and the theorems quantify
   over it.  The parameters: support for `char` and 256-bit primitives, the limit on the number of bits, and `x_len64`:
   whether scale-decode reads the length of a sequence or string as a `Compact<u64>` or a `Compact<u32>` (the encoder casts
   lengths to `u32`, encode.rs:137; where the two differ see `C24_long_refuted`).
4. Unicode tables (`char::is_alphabetic`, `is_numeric` above U+007F) are parameters; theorems that need it assume
   `unicode_ok` (alphabetic/numeric characters are not white space).

Not modelled: memory exhaustion and allocation (except the capacities reserved by the decoders, C73), stack overflow, running
time (except where a step counter is stated: C63, C78, C79, C83),
`Debug` output, the text of error messages of the dependencies (in `serde_impls` those made by serde).

## 2. Files

| file | models |
|------|--------|
| `Base.v` | results, characters, UTF-8 lengths |
| `Value.v` | `value_type.rs`, `at.rs` |
| `Equality.v` | derived `PartialEq`, `Clone` of `value_type.rs` |
| `Chars.v` | `string_helpers.rs`, std char classes |
| `Fmt.v` | `to_string.rs`, `custom_formatters/hex.rs` |
| `Builder.v` | `ToWriterBuilder`, `FromStrBuilder` driven by histories of calls |
| `Parse.v` | `from_string.rs` |
| `ParseState.v` | `from_string.rs`, custom parsers with memory |
| `ParseWork.v` | `from_string.rs` with a count of reads and of recursion depth |
| `DecodeWork.v` | `decode.rs` with a count of calls and of recursion depth |
| `TraceWork.v` | `tracing_decoder/visitor.rs`, `path.rs` with a count of calls, recursion depth, path segments copied and values cloned |
| `Hex.v`, `Ss58.v` | `custom_parsers/*.rs` |
| `ByteParsers.v` | `custom_parsers/*.rs`, `custom_formatters/hex.rs` on bytes, with panics and undefined behaviour |
| `Cursor.v` | `decode.rs` field decoding with the caller's cursor and panics |
| `Scale.v` | type registry, compact/LE/UTF-8/bit codecs |
| `Spec_Scale.v` | independent SCALE encoding relation |
| `Decode.v` | `scale_impls/decode.rs` |
| `Trace.v` | `scale_impls/tracing_decoder/*.rs` |
| `Alloc.v` | both decoders with a log of the capacities they reserve |
| `Encode.v` | `scale_impls/encode.rs` |
| `Serde.v` | `serde_impls/*.rs` |
| `DocRich.v` | `deserialize.rs`, `bitvec_helpers.rs` on documents with newtypes and keys of any kind |
| `SerdeTexts.v` | `deserializer.rs`, `serializer.rs` with the texts of their errors |
| `Panics.v` | the functions of `decode.rs`, `encode.rs`, `deserializer.rs`, `from_string.rs` that contain an `expect` or add offsets, with panics as outcomes |
| `MapShared.v` | `value_type.rs` `map_context` with closures whose clones share something |
| `SerdeAlloc.v` | `deserialize.rs`, `bitvec_helpers.rs` with a log of the capacities they reserve |
| `Macro.v` | `macros.rs` |
| `MacroDepth.v` | `macros.rs` with the depth of the expansions |
| `SerdeCalls.v` | the serializer as a state machine driven by arbitrary call histories |
| `SerdeContent.v` | serde's buffering `Content` deserializer in front of the crate's |
| `FmtParts.v` | `Display` of `Composite`, `Variant`, `Primitive`, `BitSequence` |
| `Messages.v` | `Display` of `ParseError`, `Path`, `TraceDecodingError` |
| `Base58.v`, `Blake2.v` | concrete base58 and BLAKE2b-512 |
| `Repo_*.v` | the crate's unit tests and documentation examples, run on the model |

## 3. How dependencies are modelled (from documentation, not in the sandbox)

scale-encode:
* numbers/char: skip single-entry wrappers (composite/tuple/array of exactly one entry), then primitive ints with range
  check, or `Compact` of (wrapped) unsigned primitive; otherwise `WrongShape`.
* bool/str: skip single-entry wrappers, then exactly that primitive.
* `[u8;32]`: array of equal length, sequence (compact length), or tuple/composite with one field (recursively).
* `Composite::encode_composite_as_type_to`: skip through tuples/composites with exactly one *unnamed* field; then
  - composite target: exactly one unnamed value => encode that value at the same type; otherwise line up fields;
  - tuple target: exactly one value => encode that value at the same type; otherwise line up fields;
  - anything else: exactly one value => encode that value there; otherwise `WrongShape`.
* `encode_composite_fields_to`: if some source *and* some target field is named, line up by name (last duplicate wins,
  missing => error, extra ignored); otherwise lengths must agree and fields are taken in order.
* `Variant::encode_variant_as_type_to`: skip single unnamed fields; find first variant with that name; write the index
  byte; then the fields.

scale-decode: `decode_with_visitor` with an `is_compact` flag; see `Decode.v`.

## 4. Properties: what is modelled and how it is proved

`properties.jsonl` has the English statement, `MANIFEST.json` the exact theorem names.  Every theorem is in the `Props_*.v`
file named in the heading, beside `Example`s that meet its hypotheses with concrete, non-trivial data.

**Values (`Props_Value.v`; model `Value.v`, spec `Spec_Value.v`)**
* C01 `map_context` with a *stateful* closure, compared with an independent description of what each node's call sees; induction on values. Closures whose
  clones share something (`MapShared.v`, `Props_Shared.v`, `Spec_Shared.v`): one call per node, in lexicographic order of the paths, handing on what is shared.
* C02 `at` / chains of `at`, against a relation "is the child at this location"; first field of a name wins.
* C03 constructors / accessors / `len` / `values` / integer conversions with wrapping `as` casts.

**Parsing (`Props_Parse.v`; `Parse.v`, spec `Spec_Grammar.v`)**
* C06, C08 the parser returns a suffix and terminates: fuel is the input length, never exhausted.
* C07 error locations in range; the claim for `end_loc` is false, refuted by a witness.
* C09 numbers exact or overflow error; C10 escapes; C11 the parser accepts exactly a declarative grammar (inductive
  relation, `text -> value -> Prop`): soundness, completeness, exactness with the remaining input, unambiguity.

**Formatting (`Props_Fmt.v`; `Fmt.v`, spec `Spec_Fmt.v`)**
* C04 formatting (any style) then parsing gives the value back, for every value satisfying a syntactic condition; C05 the
  complement: families of values that do *not* come back.
* C12 every writer (a state machine that may fail at any call) sees a prefix of the full text; C13 custom formatters;
  C18 styles differ in white space only; C19 fails exactly for 256-bit primitives; C20 decimal numerals.

**Custom parsers/formatters (`Props_Custom.v`; `Hex.v`, `Base58.v`, `Ss58.v`, spec `Spec_Hex.v`)**
* C14-C17.  ss58 for an *arbitrary* hash and base58 decoder, plus the mathematical base58 (`Base58.v`).  The cursor claim is
  false outside ASCII (refuted), with the exact behaviour proved.

**SCALE decoding (`Props_Decode.v`; `Registry.v`, `Scale.v`, `Decode.v`, spec `Spec_Scale.v`, `Spec_Decode.v`)**
* C21 decode iff an independent inductive encoding relation; C22 locality; C23 prefix freedom; C29 contexts; C36 field-wise
  decoding; C48 termination condition and divergence (fuel = recursion depth; `EHang` for every fuel = divergence).
* C30, C49 the tracing decoder (`Trace.v`, `Spec_Trace.v`): agreement with the plain decoder; located errors.

**SCALE encoding (`Props_Encode.v`; `Encode.v`, spec `Spec_Encode.v`)**
* C24 encode after decode (`EncodeNested.v`: which lists are not mistaken for one of their own items inside several newtypes); C25 output is valid; C26 buffer after a failure; C27 append only; C28 contexts; C31 termination;
  C32 fields by name; C33 newtypes; C34 booleans as bits; C35 lengths; C37, C38 numbers and compact.

**Serde (`Props_Serde.v`; `Serde.v`, spec `Spec_Serde.v`)**
* C39-C46, C50-C57: a reified protocol.  `ser` = the calls a `Serialize` impl may make; `ty`/visitors = what std and derived
  `Deserialize` impls ask for; the crate's serializer, deserializer, `Serialize`/`Deserialize` impls are functions on those.

**Macro (`Props_Macro.v`; `Macro.v`, spec `Spec_Macro.v`)**
* C47 the `macro_rules!` rules, in order, over token trees, for every expression parser that satisfies `rustc_like`;
  compiles exactly on an inductive grammar.  C58 the `From` conversions.
* C59: `Spec_Layout.v` gives the text of a value by plain concatenation (one line) and as a list of lines with depths
  (pretty); the state-passing formatter is proved equal to it, with pure custom formatters and context printers.
* C60, C61: `Messages.v` models the `Display` impls of trace errors, paths and parse errors.  C62: every error of a parse with
  arbitrary custom parsers is traced back to the parser that made it (`CustomErr.v`).
* C63: `EncodeCost.v` is the encoder with a counter for calls of `encode_as_type_to`, proved equal to `Encode.v` by erasing
  the counter; `EncodeLinear.v` repeats the C24 proof with counts, `CostFacts.v` has the upper bound and the blow-up.
* C64: the inductive relation `same` (`Spec_Same.v`) between a source value and a decoded value; `EncodeSame.v` proves by
  induction on the value that every successful encoding is a valid encoding of a related value.
* C65: `EncodeLoc.v` repeats the encoder with the location attached by `at_idx`/`at_field`; `erase_encode_l` proves the two
  encoders equal after erasing the paths. `Spec_Loc.v` says what it means for a path to lead from a value at a type to a value
  inside it at a type (`leads`) and to be followed literally (`follows`); by induction on the value every error path leads to a
  culprit. Literal following is refuted by a single-value composite.
* C66 (`Props_Doors.v`, `EncodeText.v`): composition of C04, C21 and C24: encoding does not see the sign type of a number
  (`encode_unsigned`), and every decoded value is `text_ok` in a `speakable` registry.
* C67 (`Props_Rust.v`, `Spec_Rust.v`, `RustFacts.v`): a universe of Rust types with three independent readings: what the derived
  `Encode` writes (`scale`), what the derived `TypeInfo` registers (`type_info`), what serde sees (`serde_of`); by mutual
  induction over `scale` the decoded value is the value of `to_value`, by induction over valid encodings every decodable
  input is the encoding of a datum.

* C68 (`Props_TextData.v`, `Spec_TextData.v`, `SerdeText.v`): serde and SCALE through text. `de_keeps` is a simulation: every event the
  deserializer produces for a value is matched, for the value with non-negative signed numbers made unsigned, by the same event or an
  unsigned one of the same number, and every visitor of the type universe that accepts the first accepts the second with the same result.
  `say_all`: `to_value` of sayable data is printable. With C04, C24, C40, C66 and C67 this gives the circle bytes, value, text, value, datum.
* C69 (`Props_Parts.v`, `Spec_Parts.v`, `SerdeParts.v`): `Composite`, `Variant`, `Primitive` as `SrcComposite`/`SrcVariant`/`SrcPrim`; two
  sources that answer every hint alike are read alike by every type; the targets by case analysis of the visitors. The bare
  `Variant` differs for options and structs (two `_refuted` theorems).
* C70 (`Props_Parts.v`, `SerdeCalls.v`, `Spec_Calls.v`, `SerdeCallsFacts.v`): the two compound serializers as state machines with a
  `Panics` outcome; an invariant (fields so far, pending key) by induction on the history from the right.
* C71 (`Props_Content.v`, `SerdeContent.v`, `Spec_Content.v`, `SerdeContentFacts.v`): serde's `Content` buffer and the derived code for
  `untagged`, `tag`, `tag + content`, `flatten`, parametric in the bodies; induction on the value. Trusted: the description of
  serde's `ContentVisitor` (no 128-bit integers, no enums).
* C72 (`Props_Both.v`, `Spec_Both.v`): one inductive notation with its Rust tokens and its text; induction over it gives a derivation
  in the macro's grammar (C47) and one in the text grammar (C11).

* C73 (`Props_Alloc.v`, `Alloc.v`, `Spec_Alloc.v`): both decoders with a log of the capacities given to `Vec::with_capacity`; one
  induction on the fuel shows that the results are those of `Decode.v`/`Trace.v`, that the log of a success is the list of list
  lengths of the value, and bounds each entry.  `run L` is a run with an allocator that grants up to `L` values per list.
  (`serde_impls/deserialize.rs:194,205` and `bitvec_helpers.rs:91` also reserve what a `size_hint` says; the hint comes from the
  caller's deserializer and is not modelled.)
* C74 (`Props_Size.v`, `Spec_Size.v`, `SizeFacts.v`): induction over the encoding relation of C21 with the invariant
  `nodes + (S if bytes were read) <= m t + 2 S * bytes`.

* C75 (`Props_Foreign.v`, `Spec_Foreign.v`, `ForeignFacts.v`, `ForeignTargets.v`): a document is the tree of the events its
  deserializer sends (`doc`, Serde.v).  `means`/`means_fields`/`means_variant`/`means_prim` are relations on documents; both
  directions by induction on the size of the document.  Left to C96: a second entry behind the reserved key (hypothesis
  `no_leftovers`), map keys that are not strings, `visit_newtype_struct`.
* C76 (`Props_Maps.v`, `Spec_Maps.v`, `SerdeMaps.v`): the insertion into a `BTreeMap` keeps the list sorted and replaces an entry;
  a sorted list is determined by its entries.
* C77 (`Props_Writes.v`, `Spec_Writes.v`, `WritesFacts.v`, `BracketFacts.v`): one relation per group of rules; each function of the
  encoder is shown equivalent to its relation, the composite case by induction over the value with the decidability of the first two
  attempts coming from termination.

* C78 (`Props_Work.v`, `Spec_Work.v`, `ParseWork.v`, `WorkFacts.v`, `WorkBound.v`): the parser again with a count of characters asked
  for and of simultaneously active calls; erasing the counts gives `Parse.v`; by induction on the fuel each parser function pays
  for what it consumes (alternatives that do not apply cost a constant, one that fails for good may cost the whole text).
* C79 (`Props_DecodeWork.v`, `Spec_DecodeWork.v`, `DecodeWork.v`, `DecodeWorkFacts.v`, `DecodeWorkBound.v`): the decoder again with a count
  of the calls of `decode_with_visitor` and of how many are active at once, proved to answer the same; bounds for both from certificates
  about the registry (`call_weights`, `ranks`: how types nest without a sequence or variant in between), by induction on the fuel; lower
  bounds by nodes and depth of the value; refutations by a recursive type and by sequences of zero-sized items.
* `Props_Texts.v`, `Spec_Texts.v` add to C61 (every error text as a table, and which kinds cannot be told apart), C42 (the calls of
  `Serialize for Value` as an inductive relation, complete) and C71 (internally tagged enums from unnamed composites).
* C80 (`Props_TextSize.v`, `Spec_TextSize.v`, `TextSizeFacts.v`): the formatter is generic in its writer; run with a writer that records
  its history and accepts or refuses as it likes, a Hoare-style cost calculus over the formatter's actions bounds calls and characters;
  lower bound and the quadratic witness through the layout of C59.
* `Props_Vocab.v`: what the words shared by model and specifications mean (white space, ASCII classes, byte lengths, UTF-8, order of keys,
  numerals, ranges of primitives and integer types); listed under the properties that use them (C03, C07, C11, C21, C43, C59, C76).

- **C81** (equality and clone). `value_eq ctx_eq` is the derived `PartialEq` of the five types of value_type.rs over any
  equality of contexts, `value_clone` the derived `Clone`. `C81_exact` is by induction on the value: equal iff `same_shape`
  (Spec_Value) and related contexts at every path; everything else follows from it, the consequences for text, bytes and serde
  by C59, C28 and C53. `Bits` (scale-bits) is assumed to compare as the list of its bits.

- **C82** (`value!` and the recursion limit). `expand_d` is the macro of `Macro.v` again, one invocation at a time, with the depth of
  the deepest expansion; `needs` (Spec_MacroDepth) gives that depth by rules over the grammar. Soundness and completeness are
  proved as for C47, by induction on fuel and on the derivation. Assumed of rustc: an invocation in the output of an expansion is
  one level deeper, one that is passed on as an expression fragment counts where it ends up, and the limit bounds the level.
* C83 (`Props_TraceWork.v`, `TraceWork.v`, `TraceWorkFacts.v`): the tracing decoder again with counts, proved to answer the same; its calls
  and levels related to those of the plain decoder call by call (equal unless the capacity check strikes), hence the bounds of C79; copies
  of paths bounded by induction on the fuel (each call pays for the copies at its path, its parent for one more); clones bounded by the
  value in the error; the quadratic lower bound from the chain of nested values of C79.
* `Props_Finite.v` adds to C74, C79 and C83 that the certificates exist for every registry with finitely many types none of which contains
  itself directly: ranks and weights are computed with fuel from the parts of a type, and more fuel than the well-founded nesting needs
  does not change them.

* C84 (`Props_Shape.v`, `Spec_Shape.v`, `ShapeFacts.v`): `Spec_Shape.alike` says when a relation between the ids of two registries is a
  bisimulation. Decoding and tracing are related by induction on the nesting bound, encoding by induction on the value, with a relation
  between encoders. Renumbering and irrelevance of unneeded types are instances. (The model is polymorphic in the ids, so this is close to a
  free theorem of it: it holds because the code never compares or inspects ids, which is the point; few edits of the model can break it.)

* C85 (`Props_Cursor.v`, `Cursor.v`): the item iterator of scale-decode, both functions that decode fields and the two trait implementations,
  statement by statement with the caller's cursor and the `expect` as explicit outcomes; related to `Decode.v` by induction on the fields.
  Assumed about scale-decode: `Composite::decode_item` ends the iteration when an item fails (the other case has its own theorem).
* C86 (`Props_Bytes.v`, `ByteParsers.v`): `parse_hex`, `parse_ss58`, `format_hex` on bytes with panics and undefined behaviour as outcomes;
  equal to the character-level models by induction on the text, so that neither outcome occurs.
* C87 (`Props_SerdeAlloc.v`, `SerdeAlloc.v`, `Spec_SerdeAlloc.v`): documents with announced sizes and breaking-off points; a reader with a log of
  reservations; equal results to `Serde.v` and the bounds by induction on the document; values of the crate as such documents (`offer`).
* C88 (`Props_Builder.v`, `Builder.v`): the builders as state machines; induction on the history.
* C89 (`Props_Newtype.v`): what is handed to the content answers every hint as the value does, except Option and struct for
  variants; case analysis on the target.
* C90 (`Props_Errors.v`, `Spec_Errors.v`): induction on the value; the path part comes from C65.
* C91 (`Props_DecodeErrors.v`, `Spec_DecodeErrors.v`): induction on the fuel one way, on the way to the item the other.
* C92 (`Props_Memory.v`, `Spec_Memory.v`): simulation between the parser with memory and the one without, by induction on the fuel; positions
  decrease strictly, so the conversation is a function of the text.
* C93 (`Props_Reads.v`, `Spec_Reads.v`, `ReadsFacts.v`): inductive rules over places, written without hints and visitors; both directions by
  induction on the type, with one lemma per type constructor.
* C94 (`Props_ToValue.v`, `Spec_ToValue.v`, `ToValueFacts.v`): inductive rules; soundness and totality by induction on the type.
* C95 (`Props_Convert.v`, `Spec_Convert.v`, `ConvertFacts.v`): rules for single data and a relation between types; induction on the target type,
  through the rules of C93 and C94.
* C96 (`Props_RichDocs.v`, `Spec_RichDocs.v`, `DocRich.v`, `RichFacts.v`): deserialize.rs on documents with newtypes and arbitrary keys, equal to
  the model of Serde.v on the documents that has; both directions of the rules by structural induction on the document.
* C97 (`Props_SerdeTexts.v`, `Spec_SerdeTexts.v`, `SerdeTexts.v`): the deserializer with texts, equal to the one of Serde.v when the texts are erased; a
  table of texts as an inductive relation, both directions by cases; the variant text over the documents of C96.
* C98 (`Props_FmtTalk.v`, `Spec_FmtTalk.v`): the state `W` of the formatter model holds the writer and all memory. Rules of a whole writing session as a
  mutual inductive relation over a table of layout items; the formatter obeys them (induction on the value), they are deterministic for writers that do not
  care about pieces (rule induction), and the questions are the reached nodes in lexicographic order of their paths.
* C99 (`Props_Panics.v`, `Panics.v`): the functions that contain an `expect` or an offset addition, written again with results `Panic | Undefined | Ran`; proved
  equal to `Ran` of the functions of `Decode.v`, `Encode.v`, `Serde.v` and `Parse.v` by induction on the fuel and on the field lists.
* C100 (`Props_Growth.v`, `Spec_Growth.v`, `GrowthFacts.v`): growth of a registry as a relation on answers; decoding by induction on the fuel with a relation between
  the two results (same, or refused with a new variant in the data), encoding by induction on the value with pointwise equal encoders.
* C101 (`Props_Streams.v`, `Spec_Streams.v`, `StreamFacts.v`): a relation between decoding `bs` and `bs ++ q` (missing input, same result with `q` behind, same error)
  by induction on the fuel for both decoders; client loops over lists of values by induction, using C64 and C27; lines by induction from C04.
* C102 (`Props_Edit.v`, `Spec_Edit.v`, `EditFacts.v`): a relation "this part, at a place of this type, replaced"; by induction on it the encoding relation
  splits into what is in front, the part, and what is behind; C21 and C24 carry this over to the decoder and the encoder.
* C103 (`Props_Migrate.v`, `Spec_Migrate.v`, `MigrateFacts.v`): `goes d t'` lists where the values of a type may go, `migration` asks for it of all pairs of a
  relation between types (so it is coinductive in effect); by induction on the encoding relation of the source, decoded values fit the rules of C77 at the target;
  C64 gives the same data.
* C104 (`Props_Incomplete.v`, `Spec_Incomplete.v`, `IncompleteFacts.v`): the parser is run on a text and on the text with something appended, and by induction on the
  fuel the two runs agree until the first reaches its end (`kept`); for the converse, by induction on the fuel each parser that stopped at the end of the text leaves the
  beginning of something in the grammar, whose completeness (C06) gives the value.
* C105 (`Props_Splice.v`, `Spec_Splice.v`, `SpliceFacts.v`): the parser is replaced by the grammar (C06), the formatter by the one-line layout (C59); by induction on the
  position, the derivation of the whole contains one of the part, and stays one when another derivation stands there.
* C106 (`Props_EditAny.v`, `EditAnyFacts.v`, over `Spec_Edit.v`): the rules of encoding (C77) are applied along the place of the part; all other parts are written as C24 says.
  The step through a newtype needs that a value is written the same way at a newtype and at its content (`through`), which fails exactly for nested lists.
* C107 (`Props_EditText.v`, `PlaceFacts.v`, `EditTextFacts.v`, over `Spec_Edit.v` and `Spec_Splice.v`): C105 and C106 joined. That the place where the printer puts a part is the place where the
  parser reads it is proved by putting a long string there, which can stand in one place only (`one_place`); the value read from a text encodes like the value meant (`unsigned_form`, C66).
* C108 (`Props_Ident.v`, `IdentFacts.v`): the roundtrip of C04 read as injectivity; for decoded values the type fixes what the text leaves open (`printed_alike`, a simultaneous induction over two
  encodings), and the unique encoding of C23 fixes the bytes.
* C109 (`Spec_Json.v`, `JsonFacts.v`, `Props_Json.v`): what JSON text keeps of a document is a function on documents; by C75 the meaning of the result is a relation, which is shown to hold for
  `json_read v` by induction (`good_any`). Re-encoding: `json_read` is C04's `unsigned_form` on values without variants and characters, and C66 encodes that alike.
* C110 (`Spec_Rearranged.v`, `EncodeReorder.v`, `JsonReorder.v`, `Props_Rearranged.v`): the induction of C24 (`complete_mut`), with every rearrangement of the value in its conclusion; lists that the encoder
  might take for one of their own items keep their "wide" shape under rearrangement. JSON: by induction on the value every reordering of its document means (C75) a rearrangement of it.
* C111 (`Spec_Shuffled.v`, `ShuffleFacts.v`, `Props_Shuffled.v`): the induction of C95 over the reading type, with a reordering between `writes` (C94) and `reads` (C93); keys of what was written are distinct,
  so looking up by name and collecting into maps do not see the order.
* C112 (`Spec_Places.v`, `PlacesFacts.v`, `Props_Places.v`): induction on the path over the rules of C94: each step of the data is a step of its value, and the rules hold again after a replacement; C02 for `at`, C40 and C95 for reading.
* C113 (`Spec_DataEdit.v`, `DataEditFacts.v`, `Props_DataEdit.v`): a relation says that data lie in a value with all parts; induction on types: `to_value` establishes it (from the rules of C94), unsigned forms keep it (C68), and it implies the rules of C93; one step of a path exchanges one part. C105 for text.

No property of the list is left out as inexpressible.  Things users may want that the model does not express: running time
(other than the count of C63) and memory, the wording of error messages (other than those of C60, C61), `Debug` output, thread safety.

## 5. What is modelled and what is not

| source | modelled | not modelled |
|--------|----------|--------------|
| `value_type.rs`, `at.rs` | all types, constructors, accessors, `map_context`, `From` impls, derived `PartialEq` and `Clone`, `At` | iterator laziness; `Debug` |
| `from_string.rs`, `string_helpers.rs` | the whole parser, all error kinds and locations, `Display` of errors | the texts of std's `ParseIntError` (a parameter) |
| `to_string.rs`, `custom_formatters` | all styles, indentation, custom formatters, `print_context`, sinks, `Display` | |
| `custom_parsers` | hex, ss58 incl. cursor arithmetic in chars and bytes | the base58 crate's internal buffer limit |
| `decode.rs` | all visitor methods, compact, bit sequences, field-wise decoding | the cursor left behind by a *failed* `decode_as_type` (that of field decoding: C85) |
| `tracing_decoder` | values, contexts, paths, error causes, capacity limit, `Display` of paths and errors | the texts of scale-decode errors and type ids (parameters) |
| `encode.rs` | all value kinds, all targets, the bytes pushed before an error, location paths of errors | texts of encode errors (scale-encode) |
| `serde_impls` | serializer, deserializer, `Serialize`, `Deserialize`, bitvec helpers, texts of the crate's own errors | texts made by serde |
| `macros.rs` | `value!`, `value_internal!`, `vec_wrapper!`, the depth of the expansions | rustc's expression parser (a parameter), hygiene |
| `lib.rs`, `prelude.rs`, `mod.rs` | `stringify`/`scale`/`serde` entry points through the functions above | doc text, re-exports |

Assumptions about dependencies are in section 3 and in the header comments of `Scale.v`, `Decode.v`, `Encode.v`, `Trace.v`
and `Serde.v`.  Further ones: scale-bits ignores padding bits when decoding, writes zero padding and serialises as a sequence of
booleans; `SeqDeserializer::end` is called by consumers that want an exact length (flag in the model); a byte-buffer
type takes bytes or a sequence of `u8`.

## 6. Trusted base and Print Assumptions

* The Coq 8.16.1 kernel (with its `vm_compute` conversion) and the standard library.
* `Print Assumptions` is run after **every** theorem of the `Props_*.v` files; each prints
  "Closed under the global context".  No axiom of the standard library is used, none is declared here.
  (`vcheck` lists seven items of `Coq.ssr.ssrunder`: parameters of a module of the standard library that is *loaded* by
  `lia`/`ZifyBool`; no theorem depends on them.)
* No `Admitted`, no functor, no module type, no `Declare Module`, no plugin, no disabled kernel check, no section-less
  `Variable`/`Hypothesis`.
* The correspondence model <-> `/repo` is by reading: each definition cites its lines.  As a check of that reading, the crate's
  unit tests and documentation examples are replayed on the model (`Repo_Text.v`, `Repo_Scale.v`, `Repo_Serde.v`, `Repo_Macro.v`,
  `Repo_Docs.v`): all of them come out as the crate expects.  They are tests of the model, not claims.

## 7. Wrong programs

`seeded/LOG.jsonl` records edits of the model that imitate realistic bugs and the theorems that fail for them.
