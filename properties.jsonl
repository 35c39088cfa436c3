{"id": "C01", "title": "Context mapping obeys the functor laws", "statement": "Value::map_context(f) replaces every context c by f(c) and changes nothing else (shape, names, order, primitives, bits); mapping g after f equals mapping the composition; mapping the identity is the identity; remove_context forgets exactly the contexts. For a stateful (FnMut + Clone) closure each node sees the closure state produced by its ancestors only: siblings never share state. What the clones of a closure do share (a cell, a log) they see through calls made exactly once per value, in the order of the text.", "quantifier": "all values of every nesting, all context types, all closures, states they own and states their clones share", "why_tests_cant": "values nest arbitrarily; a test fixes one tree and one closure", "anchors": ["src/value_type.rs:Value::map_context", "src/value_type.rs:Composite::map_context", "src/value_type.rs:remove_context"]}
{"id": "C02", "title": "at() is a total lookup with documented semantics", "statement": "v.at(loc) never fails: with a string it returns the first field of that name of a named composite (or variant), with an index the i-th field of a named or unnamed composite/variant, and None in every other case; chained lookups through Option propagate None; the result is always an immediate child of the value.", "quantifier": "all values, all locations, all chains of lookups", "why_tests_cant": "infinitely many values and paths", "anchors": ["src/at.rs:At", "src/at.rs:AsLocation"]}
{"id": "C03", "title": "Constructors and accessors agree", "statement": "Each as_xxx accessor returns Some exactly when the value is that primitive and returns exactly the stored payload; len/is_empty/values agree with each other and with at(); the From<integer> conversions preserve the mathematical number.", "quantifier": "all values and all primitive payloads", "why_tests_cant": "payload space is 2^128 and beyond", "anchors": ["src/value_type.rs:as_u128", "src/value_type.rs:Composite::values", "src/value_type.rs:from_bytes", "src/value_type.rs:impl_primitive_type"]}
{"id": "C04", "title": "Formatting then parsing gives the value back", "statement": "For every value built from the constructors the syntax supports (no 256-bit primitives, and no variant whose bare name starts with `true` or `false`), parsing the text produced by any of the Display / Debug-pretty / to_writer_custom styles (with white space indentation) followed by any rest that is not a continuation of the last token gives back the value - with non-negative I128 read back as U128 - and exactly the rest.", "quantifier": "all values, all formatting styles, all whitespace indents, all trailing texts", "why_tests_cant": "unbounded nesting, all unicode strings and identifiers", "anchors": ["src/string_impls/to_string.rs:fmt_value", "src/string_impls/from_string.rs:parse_value", "src/string_impls/to_string.rs:ToWriterBuilder"]}
{"id": "C05", "title": "Unrestricted round trip through strings fails, exactly for known shapes", "statement": "The unrestricted claim `from_str(v.to_string()) == v` is false: a variant whose unquoted name begins with true/false is read as a boolean and the remaining text is left over; an I128 >= 0 comes back as U128.", "quantifier": "existence: concrete witnesses, and the family of all such variants", "why_tests_cant": "the failing inputs are outside the test-suite's examples", "anchors": ["src/string_impls/from_string.rs:parse_value", "src/string_impls/from_string.rs:parse_bool", "src/string_impls/to_string.rs:fmt_variant"]}
{"id": "C06", "title": "The parser consumes a prefix and returns the untouched suffix", "statement": "from_str returns, success or failure, a remaining slice that is a suffix of the input; on success the consumed prefix is what the value was parsed from and the result does not depend on how the suffix is represented beyond the characters inspected.", "quantifier": "all input strings, any custom parsers that respect the cursor contract", "why_tests_cant": "all strings", "anchors": ["src/string_impls/from_string.rs:FromStrBuilder::parse", "src/string_impls/from_string.rs:parse_value"]}
{"id": "C07", "title": "Error locations are in range", "statement": "The start_loc of every ParseError is a byte offset that lies between 0 and the input length and on a UTF-8 char boundary of the input; end_loc >= start_loc. (The analogous claim for end_loc is false: it may exceed the input length or fall inside a character.)", "quantifier": "all input strings", "why_tests_cant": "all strings, including multi-byte ones", "anchors": ["src/string_impls/from_string.rs:ParseError", "src/string_impls/from_string.rs:at_one", "src/string_impls/from_string.rs:between"]}
{"id": "C08", "title": "The parser always terminates", "statement": "For every input the text parser returns (a value or an error): recursion is bounded by the length of the input.", "quantifier": "all input strings", "why_tests_cant": "termination is not observable by tests", "anchors": ["src/string_impls/from_string.rs:parse_value", "src/string_impls/from_string.rs:parse_named_composite"]}
{"id": "C09", "title": "Numbers parse exactly or report overflow", "statement": "A digit string with optional underscores denotes, when it fits u128 (unsigned) or i128 (with a minus sign), exactly that mathematical number; otherwise the parser reports an error; it never wraps or saturates.", "quantifier": "all digit strings of any length", "why_tests_cant": "infinite", "anchors": ["src/string_impls/from_string.rs:parse_number"]}
{"id": "C10", "title": "Escaped strings and chars round trip", "statement": "Formatting any String or Char primitive as a quoted literal and parsing it gives the same content, for every string of unicode scalar values including quotes, backslashes, newlines, NUL.", "quantifier": "all strings, all chars", "why_tests_cant": "all unicode strings", "anchors": ["src/string_impls/string_helpers.rs:to_escape_code", "src/string_impls/string_helpers.rs:from_escape_code", "src/string_impls/to_string.rs:fmt_string", "src/string_impls/from_string.rs:parse_string"]}
{"id": "C11", "title": "The parser accepts exactly a documented grammar", "statement": "If the text is a derivation of a value in the independently stated grammar (with arbitrary white space between tokens) the parser returns that value; if the parser returns a value then the consumed text is a derivation of it.", "quantifier": "all strings and all values", "why_tests_cant": "all strings", "anchors": ["src/string_impls/from_string.rs:parse_value", "src/string_impls/from_string.rs:parse_named_composite", "src/string_impls/from_string.rs:parse_variant"]}
{"id": "C12", "title": "A failing writer is reported and sees a prefix", "statement": "If the fmt::Write sink fails at any point, formatting returns an error and the bytes handed to the sink before are a prefix of the full output; if it never fails the sink receives exactly the full output.", "quantifier": "all values, all styles, all failure points of the sink", "why_tests_cant": "all failure points", "anchors": ["src/string_impls/to_string.rs:ToWriterBuilder::write", "src/string_impls/to_string.rs:fmt_value"]}
{"id": "C13", "title": "Custom formatters take precedence and are tried in order", "statement": "At each node the first custom formatter that returns Some decides the output of this node (its children are not visited by the default formatter), an Err it reports is returned; if all return None the default output is produced.", "quantifier": "all values, all lists of formatters", "why_tests_cant": "all formatters", "anchors": ["src/string_impls/to_string.rs:add_custom_formatter", "src/string_impls/to_string.rs:fmt_value"]}
{"id": "C14", "title": "format_hex and parse_hex are inverse", "statement": "For a non-empty unnamed composite of U128 values below 256 format_hex prints 0x followed by two upper-case hex digits per value; parse_hex reads such text back to the same composite; anything else is left to the default formatter.", "quantifier": "all byte strings of every length", "why_tests_cant": "all byte strings", "anchors": ["src/string_impls/custom_formatters/hex.rs:format_hex", "src/string_impls/custom_parsers/hex.rs:parse_hex"]}
{"id": "C15", "title": "parse_hex accepts exactly hex and leaves the cursor right", "statement": "parse_hex returns None, leaving the cursor untouched, when the text does not start with 0x; otherwise it consumes the maximal run of alphanumerics and either yields all the bytes or an error; odd length and non-hex digits are errors located within the consumed text.", "quantifier": "all strings", "why_tests_cant": "all strings", "anchors": ["src/string_impls/custom_parsers/hex.rs:parse_hex"]}
{"id": "C16", "title": "parse_ss58 reads exactly the valid checksummed addresses", "statement": "parse_ss58 returns a value iff the maximal alphanumeric run is base58 of prefix, payload and the first two bytes of the hash of prefix and payload (and is not true/false/a number/in front of a bracket); the value is the payload as bytes and the cursor stops behind the run, otherwise the cursor does not move. Encoding any account id with any supported prefix is read back to these bytes. The payload is not required to be 32 bytes, so identifiers with underscores can be misread (refuted).", "quantifier": "all addresses, all account ids, any hash function", "why_tests_cant": "2^256 accounts", "anchors": ["src/string_impls/custom_parsers/ss58.rs:parse_ss58", "src/string_impls/custom_parsers/ss58.rs:parse_ss58_bytes"]}
{"id": "C17", "title": "Custom parsers advance the main cursor by what they consumed", "statement": "When a custom parser succeeds, parsing continues exactly behind the text it consumed. True for ASCII consumed text; false for multi-byte characters (skips too far).", "quantifier": "all inputs and custom parsers", "why_tests_cant": "all custom parsers", "anchors": ["src/string_impls/from_string.rs:parse_value", "src/string_impls/from_string.rs:add_custom_parser"]}
{"id": "C18", "title": "Formatting styles differ only in white space", "statement": "Removing white space outside of quoted literals from the output of any two styles gives the same text.", "quantifier": "all values and all pairs of styles", "why_tests_cant": "all values", "anchors": ["src/string_impls/to_string.rs:FormatStyle", "src/string_impls/to_string.rs:fmt_composite"]}
{"id": "C19", "title": "Formatting fails exactly for 256-bit primitives", "statement": "With an infallible sink and no custom formatters formatting returns an error iff some 256-bit primitive occurs in the value.", "quantifier": "all values", "why_tests_cant": "all values", "anchors": ["src/string_impls/to_string.rs:fmt_primitive"]}
{"id": "C20", "title": "Numbers display exactly", "statement": "The decimal text of U128/I128 denotes exactly the number, without leading zeros, including i128::MIN and u128::MAX.", "quantifier": "all 2^128 numbers", "why_tests_cant": "2^128", "anchors": ["src/string_impls/to_string.rs:fmt_primitive"]}
{"id": "C21", "title": "Decoding is sound and complete w.r.t. SCALE", "statement": "decode_as_type(bytes, ty) = Ok(v) with remaining bytes r iff the consumed bytes are the SCALE encoding of v at type ty per an independent encoding relation.", "quantifier": "all registries, types, byte strings", "why_tests_cant": "all registries and inputs", "anchors": ["src/scale_impls/decode.rs:decode_value_as_type", "src/scale_impls/decode.rs:DecodeValueVisitor"]}
{"id": "C22", "title": "Decoding is local and consumes exactly the encoding", "statement": "A successful decode leaves a suffix of the input; appending bytes behind does not change the value and is left unread; the consumed length depends only on the consumed bytes.", "quantifier": "all registries, inputs and suffixes", "why_tests_cant": "all inputs", "anchors": ["src/scale_impls/decode.rs:decode_value_as_type"]}
{"id": "C23", "title": "SCALE decoding is deterministic and prefix-free", "statement": "Two values with the same encoding at a type are equal up to context; no encoding is a proper prefix of another at the same type, except through aliases inherent in names.", "quantifier": "all registries, types, values", "why_tests_cant": "all inputs", "anchors": ["src/scale_impls/decode.rs"]}
{"id": "C24", "title": "Encode inverts decode", "statement": "If bytes decode to v at ty then encoding v as ty gives back exactly the consumed bytes (for registries with distinct names, where a list inside two or more directly nested single-unnamed-field types has items that cannot be mistaken for lists: numbers, strings, enums, Compact, or structs, tuples and arrays of several parts that contain one of these). What decides inside two newtypes around Vec<e>: the list is written as a list with one item exactly if it can itself be written as an e. The unrestricted claim is refuted by a nested newtype around Vec<Vec<u8>> (the empty list never survives there), by padding bits, and by lists of 2^32 or more elements, whose length the encoder casts to u32.", "quantifier": "all registries and byte strings", "why_tests_cant": "all inputs", "anchors": ["src/scale_impls/encode.rs:encode_as_type_to", "src/scale_impls/decode.rs"]}
{"id": "C25", "title": "Whatever encode emits is a valid encoding", "statement": "If encode_as_type(v, ty) succeeds its output is a valid SCALE encoding at ty: decoding it at ty succeeds and consumes it entirely.", "quantifier": "all values (not only decoded ones), registries, types", "why_tests_cant": "all values", "anchors": ["src/scale_impls/encode.rs:encode_composite", "src/scale_impls/encode.rs:encode_variant"]}
{"id": "C26", "title": "Failed encodes and the output buffer", "statement": "Encoding a composite or primitive that fails leaves the output buffer as it was; (refuted:) a variant whose fields fail leaves its index byte and earlier fields behind.", "quantifier": "all values and types", "why_tests_cant": "failure points", "anchors": ["src/scale_impls/encode.rs:encode_composite", "src/scale_impls/encode.rs:encode_variant"]}
{"id": "C27", "title": "Encoding only appends", "statement": "encode_as_type_to never changes or reads bytes already in the buffer; the appended bytes and the result do not depend on them.", "quantifier": "all buffers, values, types", "why_tests_cant": "all buffers", "anchors": ["src/scale_impls/encode.rs:encode_as_type_to"]}
{"id": "C28", "title": "Encoding ignores contexts", "statement": "Two values differing only in contexts encode identically (result and bytes).", "quantifier": "all values", "why_tests_cant": "all values", "anchors": ["src/scale_impls/encode.rs"]}
{"id": "C29", "title": "Decoded contexts are type ids", "statement": "Each decoded node's context is the id of the type it was decoded from; decoding with and without context gives the same shapes.", "quantifier": "all registries and inputs", "why_tests_cant": "all inputs", "anchors": ["src/scale_impls/decode.rs:decode_value_as_type", "src/scale_impls/decode.rs:DecodeValueVisitor"]}
{"id": "C30", "title": "The tracing decoder agrees with the plain decoder", "statement": "Whenever the plain decoder succeeds the tracing one returns the same value (up to the I256 tagging, for which equality is refuted) and remaining bytes, and whenever it fails so does the tracing one.", "quantifier": "all registries, types and inputs below the capacity limit", "why_tests_cant": "all inputs", "anchors": ["src/scale_impls/tracing_decoder/visitor.rs", "src/scale_impls/decode.rs"]}
{"id": "C31", "title": "Encoding terminates", "statement": "On every registry whose single-entry wrapper chains are well-founded encode returns; on a cyclic one the wrapper search does not.", "quantifier": "all values, all registries", "why_tests_cant": "termination", "anchors": ["src/scale_impls/encode.rs:find_single_entry_with_same_repr"]}
{"id": "C32", "title": "Named fields are matched by name", "statement": "Encoding a named composite to a struct with named fields gives the same bytes for every permutation of the value's fields (with distinct names) and with extra fields added; a missing field is an error.", "quantifier": "all permutations", "why_tests_cant": "all permutations", "anchors": ["src/scale_impls/encode.rs:encode_composite_fields"]}
{"id": "C33", "title": "Newtype wrappers are transparent on encode", "statement": "A primitive encodes to a chain of single-field wrappers around its type exactly as to the type itself; a byte-array value encodes to a newtype around an array.", "quantifier": "all chains", "why_tests_cant": "all chains", "anchors": ["src/scale_impls/encode.rs:encode_composite", "src/scale_impls/encode.rs:find_single_entry_with_same_repr"]}
{"id": "C34", "title": "Composites of booleans encode as bit sequences", "statement": "An unnamed composite of bools or 0/1 numbers encodes to a bit sequence type exactly as the corresponding BitSequence; any other element is an error.", "quantifier": "all lengths, all store/order formats", "why_tests_cant": "all lengths", "anchors": ["src/scale_impls/encode.rs:encode_vals_to_bitsequence"]}
{"id": "C35", "title": "Array and tuple lengths are enforced", "statement": "Encoding to [T; n] succeeds only when the composite has n values (or peels to it), and the array encoding carries no length prefix.", "quantifier": "all lengths", "why_tests_cant": "all lengths", "anchors": ["src/scale_impls/encode.rs:do_encode_composite"]}
{"id": "C36", "title": "Field-wise decoding equals struct decoding", "statement": "DecodeAsFields over a list of fields gives the same composite and remaining bytes as decoding a struct with these fields.", "quantifier": "all field lists and inputs", "why_tests_cant": "all inputs", "anchors": ["src/scale_impls/decode.rs:DecodeAsFields"]}
{"id": "C37", "title": "Numbers are range checked on encode", "statement": "A U128/I128 encodes to an integer type of width w iff it lies in its range, as exactly w/8 little-endian bytes denoting it.", "quantifier": "all numbers and widths", "why_tests_cant": "2^128", "anchors": ["src/scale_impls/encode.rs:encode_primitive"]}
{"id": "C38", "title": "Compact targets", "statement": "Numbers encode to Compact<uN> iff they fit uN, using the minimal SCALE compact form; decoding yields the number.", "quantifier": "all numbers", "why_tests_cant": "2^128", "anchors": ["src/scale_impls/encode.rs:encode_composite", "src/scale_impls/encode.rs:encode_primitive"]}
{"id": "C39", "title": "Serde: Value to Value", "statement": "Deserializing a Value out of a Value (serde) returns it unchanged exactly when it holds no 256-bit integer and no named composite whose first key is the reserved bit-vector key; 256-bit integers come back as composites of their bytes.", "quantifier": "all values", "why_tests_cant": "all values", "anchors": ["src/serde_impls/deserialize.rs", "src/serde_impls/deserializer.rs"]}
{"id": "C40", "title": "Serde: to_value then from_value is the identity on a universe of Rust types", "statement": "For data built from integers, bools, chars, strings, Options, tuples, sequences, structs, unit structs, tuple structs (>=2), enums with unit/struct/tuple variants: from_value(to_value(x)) = x.", "quantifier": "all data of all types of the universe", "why_tests_cant": "all types", "anchors": ["src/serde_impls/serializer.rs", "src/serde_impls/deserializer.rs"]}
{"id": "C41", "title": "Serde: newtypes do not round trip (refuted)", "statement": "from_value(to_value(Foo(x))) is an error for newtype structs and newtype enum variants around scalars, options, maps, enums, tuples; for others it may return different data without an error.", "quantifier": "all such types and data", "why_tests_cant": "outside the test suite", "anchors": ["src/serde_impls/serializer.rs:serialize_newtype_struct"]}
{"id": "C42", "title": "Serde: serialising a Value", "statement": "The serialised form of a Value is: composites as map/seq, variants as enum-like map, bits as the reserved struct, and to_value of a Value is a fixed point for values made of composites and primitives.", "quantifier": "all values", "why_tests_cant": "all values", "anchors": ["src/serde_impls/serialize.rs"]}
{"id": "C43", "title": "Serde: integers convert exactly or fail", "statement": "Deserializing a value to any Rust integer type gives the number it holds if that is in range, and an error otherwise; never wraps.", "quantifier": "all values, numbers and widths", "why_tests_cant": "2^128", "anchors": ["src/serde_impls/deserializer.rs:deserialize_number"]}
{"id": "C44", "title": "Serde: tuple length mismatch is an error", "statement": "A value deserializes to a k-tuple, array or tuple struct iff it is a composite or variant with exactly k fields and each reads as its component.", "quantifier": "all values, all tuple types", "why_tests_cant": "unbounded", "anchors": ["src/serde_impls/deserializer.rs:deserialize_tuple"]}
{"id": "C45", "title": "Serde: the reserved bit-vector key is misread (refuted)", "statement": "A named composite whose first key is the reserved one does not deserialize back to itself.", "quantifier": "existence", "why_tests_cant": "outside the test suite", "anchors": ["src/serde_impls/bitvec_helpers.rs", "src/serde_impls/deserialize.rs"]}
{"id": "C46", "title": "Serde: Option handling", "statement": "from_value to an Option succeeds exactly for the variants None with no fields and Some with one readable field; a value that is not such a variant is an error, not Some(value).", "quantifier": "all values and types", "why_tests_cant": "all values", "anchors": ["src/serde_impls/deserializer.rs:deserialize_option", "src/serde_impls/serializer.rs:serialize_some"]}
{"id": "C47", "title": "value! compiles exactly on its grammar", "statement": "value! compiles exactly on the documented grammar (tuples, structs, variants of both kinds, expressions, trailing commas, nesting) and builds the value the constructors build for it; anything else is a compile error: missing colons, keys or values, tokens after a nested form. name(..) is always a variant, never a call; not every expression is accepted as a key (refuted).", "quantifier": "all token trees and all expression parsers that work like rustc's", "why_tests_cant": "all token trees", "anchors": ["src/macros.rs:value", "src/macros.rs:value_internal"]}
{"id": "C48", "title": "Decoding terminates", "statement": "decode_as_type returns on every input for every registry in which no type contains itself without a sequence or enum in between; on a type that begins with itself it never returns, whatever the input.", "quantifier": "all registries and inputs", "why_tests_cant": "termination", "anchors": ["src/scale_impls/decode.rs:decode_value_as_type"]}
{"id": "C49", "title": "Trace errors name the failing item", "statement": "When the tracing decoder reports a located error, its path leads to the item that failed, the partial value holds exactly what was decoded before it, and decoding that item alone at that offset fails with the reported cause. (Variant names are not part of the path: refuted.)", "quantifier": "all registries and inputs", "why_tests_cant": "all failure points", "anchors": ["src/scale_impls/tracing_decoder/visitor.rs", "src/scale_impls/tracing_decoder/error.rs", "src/scale_impls/tracing_decoder/path.rs"]}
{"id": "C50", "title": "Serde: what to_value rejects", "statement": "to_value fails exactly when the data contains a float or a map key that is not a string or char.", "quantifier": "all calls a Serialize impl can make", "why_tests_cant": "unbounded", "anchors": ["src/serde_impls/serializer.rs"]}
{"id": "C51", "title": "Serde: structs", "statement": "A struct is read from named fields by name: order and unknown entries play no role, absent optional fields are None, duplicates are errors; from unnamed fields by position, surplus values being ignored.", "quantifier": "all structs and composites", "why_tests_cant": "all permutations", "anchors": ["src/serde_impls/deserializer.rs"]}
{"id": "C52", "title": "Serde: a Value through another format", "statement": "A Value written to a lossless self-describing format and read back is unchanged if it has no variants, 256-bit integers or reserved keys; otherwise exactly those parts change.", "quantifier": "all values", "why_tests_cant": "all values", "anchors": ["src/serde_impls/serialize.rs", "src/serde_impls/deserialize.rs"]}
{"id": "C53", "title": "Serde: contexts are ignored", "statement": "from_value and Serialize give the same result for values that differ only in contexts.", "quantifier": "all types, values and contexts", "why_tests_cant": "all values", "anchors": ["src/serde_impls/deserializer.rs", "src/serde_impls/serialize.rs"]}
{"id": "C54", "title": "Serde: sequences", "statement": "A sequence is read from any composite or variant, element by element, field names playing no role; from nothing else.", "quantifier": "all values and element types", "why_tests_cant": "unbounded", "anchors": ["src/serde_impls/deserializer.rs:deserialize_seq"]}
{"id": "C55", "title": "Serde: values refused (refuted)", "statement": "Bit sequences are not readable as Vec<bool>; structs are not readable from variants; newtypes around Option are not readable from Some/None.", "quantifier": "all values of these kinds", "why_tests_cant": "outside the test suite", "anchors": ["src/serde_impls/deserializer.rs"]}
{"id": "C56", "title": "Serde: scalars", "statement": "Which values read as bool, char, String and unit.", "quantifier": "all values", "why_tests_cant": "all values", "anchors": ["src/serde_impls/deserializer.rs"]}
{"id": "C57", "title": "Serde: enums", "statement": "An enum is read exactly from a variant of one of its names whose fields fit that variant's shape.", "quantifier": "all enums and values", "why_tests_cant": "all values", "anchors": ["src/serde_impls/deserializer.rs:VariantAccess"]}
{"id": "C58", "title": "From conversions keep the data", "statement": "Value::from keeps scalars exactly (integers of every width), vectors by position and lists of pairs by name and position; different data of one type become different values; value!((e1, .., en)) is Value::from(vec![e1, .., en]).", "quantifier": "all Rust data with a From conversion", "why_tests_cant": "all data and nesting", "anchors": ["src/value_type.rs:From"]}
{"id": "C59", "title": "Exact layout of every style", "statement": "The text written in the compact, normal and pretty styles (and by {} and {:#}) is exactly the documented layout: which spaces, commas, braces, line breaks and indents appear where, at any nesting; contexts are printed as <..> in front of each value; custom formatters replace the text of the values they answer on.", "quantifier": "all values, indents, formatter lists and context printers", "why_tests_cant": "all values and nestings", "anchors": ["src/string_impls/to_string.rs:fmt_value", "src/string_impls/to_string.rs:ToWriterBuilder"]}
{"id": "C60", "title": "Texts of trace errors", "statement": "The text of a tracing error is its cause, the path and the partial value (pretty, with type ids and hex), exactly; to_string() panics exactly when the partial value holds a 256-bit integer (so the claim that every returned error can be printed is refuted); the path can be read back from its text if no name contains a dot or begins with a bracket, and not otherwise.", "quantifier": "all errors, registries and inputs", "why_tests_cant": "all failure points and partial values", "anchors": ["src/scale_impls/tracing_decoder/error.rs:Display", "src/scale_impls/tracing_decoder/path.rs:Display"]}
{"id": "C61", "title": "Positions in parse error texts", "statement": "The text of a parse error shows as 'char' the byte offset of the failing text, which is the character position exactly when the text before it is ASCII (refuted in general).", "quantifier": "all inputs and custom parsers within the contract", "why_tests_cant": "all strings", "anchors": ["src/string_impls/from_string.rs:ParseError Display"]}
{"id": "C62", "title": "Errors of custom parsers", "statement": "Whatever the custom parsers do, an error is either that of a custom parser asked at some point of the input, with start and end shifted to the whole input, or one of the crate's own (never of kind Custom) located in the input; parsers are asked in order and the first answer counts. Locations embedded in the error kind are not shifted (refuted).", "quantifier": "all inputs and all custom parsers", "why_tests_cant": "all custom parsers", "anchors": ["src/string_impls/from_string.rs:parse_value", "src/string_impls/from_string.rs:ParseError"]}
{"id": "C63", "title": "Work done by encoding", "statement": "Encoding a decoded value at the type it was decoded from visits every value inside it exactly once (if no list stands inside two or more directly nested single-unnamed-field types; else refuted); for any value and type the number of visits is at most (number of values inside it) * 3^(nesting depth). It is not polynomial in the size of the value: n+1 pairs of parentheses around two numbers make 2^(n+1)+1 visits when encoded to Vec<u8> (refuted).", "quantifier": "all values, types and registries", "why_tests_cant": "the amount of work is not observable on a few small inputs; the blow-up needs nesting no example has", "anchors": ["src/scale_impls/encode.rs:encode_composite", "src/scale_impls/encode.rs:do_encode_composite", "src/scale_impls/encode.rs:find_single_entry_with_same_repr"]}
{"id": "C64", "title": "Encoding keeps the data", "statement": "If encoding a value (of any shape, with any coercion the encoder performs) succeeds, the bytes decode to a value with the same data: same integers, characters, strings, booleans and bits, fields matched by name or position, up to single-value wrappers; and that value encodes to the same bytes again.", "quantifier": "all values, types and well-formed registries", "why_tests_cant": "every value against every type it can be coerced to", "anchors": ["src/scale_impls/encode.rs:encode_composite", "src/scale_impls/encode.rs:encode_variant", "src/scale_impls/encode.rs:encode_vals_to_bitsequence", "src/scale_impls/decode.rs:decode_value_as_type"]}
{"id": "C65", "title": "Locations in encode errors", "statement": "The location path of an encode error leads, by field names and positions that exist in the value and in the type, to a value that is itself refused with exactly that error (or to the first value that is not a bit, or the first byte not accepted of a 256-bit number). If the value contains no single-value composite the path can be followed literally; otherwise it cannot in general, since peeled-off layers leave no trace in it (refuted).", "quantifier": "all values, types and registries", "why_tests_cant": "every failure point at every depth", "anchors": ["src/scale_impls/encode.rs:encode_composite", "src/scale_impls/encode.rs:do_encode_composite", "src/scale_impls/encode.rs:encode_vals_to_bitsequence", "src/scale_impls/encode.rs:encode_variant"]}
{"id": "C66", "title": "Text keeps the encoding", "statement": "A value written as text (any layout) and read back encodes, at every type and into every buffer, to exactly the same outcome as the original, although non-negative signed numbers come back unsigned. In a registry without 256-bit integers and without variants named like booleans, everything that decodes can be written as text, read back and encoded to the bytes it came from. Both exceptions are real (refuted).", "quantifier": "all values, layouts, registries, types and byte strings", "why_tests_cant": "every value times every type", "anchors": ["src/string_impls/to_string.rs:fmt_value", "src/string_impls/from_string.rs:FromStrBuilder::parse", "src/scale_impls/encode.rs:encode_primitive"]}
{"id": "C67", "title": "SCALE meets serde", "statement": "For a Rust type that derives the SCALE and the serde traits and is registered with its type info: decoding the SCALE bytes of a datum gives the same value (up to contexts) as to_value of the datum; from_value reads the datum out of the decoded value (no newtypes); encoding to_value of the datum gives its SCALE bytes; and whatever decodes at that type is the encoding of a datum, which from_value reads. Empty-brace structs (value differs) and newtypes (not readable) are refuted.", "quantifier": "all Rust types of the universe, registries, data and byte strings", "why_tests_cant": "every type times every datum", "anchors": ["src/serde_impls/serializer.rs", "src/serde_impls/deserializer.rs", "src/scale_impls/decode.rs", "src/scale_impls/encode.rs"]}
{"id": "C68", "title": "Rust data as text", "statement": "Whatever from_value reads out of a value it also reads after the value was written as text (any layout) and parsed; Rust data are kept by to_value, printing, parsing and from_value; SCALE bytes of a datum can be decoded, printed, parsed, read as the datum and encoded to the same bytes. Data holding scale_value::Value (signs lost) and the converse (text readable where the value is not) are refuted.", "quantifier": "all values, layouts, Rust types without Value inside, data, registries", "why_tests_cant": "every type times every datum times every layout", "anchors": ["src/string_impls/to_string.rs:fmt_value", "src/string_impls/from_string.rs:FromStrBuilder::parse", "src/serde_impls/deserializer.rs", "src/serde_impls/serializer.rs"]}
{"id": "C69", "title": "Parts of a value as deserializers and targets", "statement": "A Composite or Primitive used directly as a serde deserializer is read by every type exactly like the Value around it, and so is a Variant by every type except options (never readable) and structs (readable where the Value is not); both exceptions are refuted claims. What Composite, Variant and Primitive can be read from (bit sequences, 256-bit integers, name/values maps with repeated keys, 32-element composites) is given exactly.", "quantifier": "all composites, variants, primitives, values and target types", "why_tests_cant": "every target type times every value", "anchors": ["src/serde_impls/deserializer.rs:Deserializer for Composite", "src/serde_impls/deserializer.rs:Deserializer for Variant", "src/serde_impls/deserializer.rs:Deserializer for Primitive", "src/serde_impls/deserialize.rs:CompositeVisitor", "src/serde_impls/deserialize.rs:VariantVisitor", "src/serde_impls/deserialize.rs:PrimitiveVisitor"]}
{"id": "C70", "title": "Any history of serializer calls", "statement": "Whatever sequence of key, value, field and element calls is made on the serializers returned by ValueSerializer, and whatever errors are ignored: each call answers as if it stood alone, the finished value holds exactly the fields that were completed, in order, under the last good key; the only panic is a value offered with no key pending, and it happens exactly then (also when retrying after a failed value). Alternating callers that stop at the first error get to_value's result and never panic.", "quantifier": "all histories of calls", "why_tests_cant": "all interleavings and ignored errors", "anchors": ["src/serde_impls/serializer.rs:NamedCompositeSerializer", "src/serde_impls/serializer.rs:UnnamedCompositeSerializer"]}
{"id": "C71", "title": "Types read through serde's buffer", "statement": "A value can be buffered by serde (untagged and internally tagged enums, flattened structs, adjacently tagged enums with the content first) exactly if it contains no integer of up to 128 bits and no variant, since integers are always offered as 128-bit ones; so such types cannot be read from any value with a number in it although they can be written (refuted round trip), and adjacently tagged enums depend on the order of the fields (refuted): they are read exactly from a tag alone, a tag followed by the content, or a content that can be buffered followed by the tag, whatever other entries there are, and from the first two of unnamed values. Everything else arrives unchanged.", "quantifier": "all values, tags, bodies and field lists", "why_tests_cant": "every value times every derived type", "anchors": ["src/serde_impls/deserializer.rs:deserialize_any", "src/serde_impls/deserializer.rs:Deserializer for Primitive"]}
{"id": "C72", "title": "value! and from_str agree", "statement": "A source text that is both an argument of value! and a text for from_str (literals, tuples, structs with identifiers as names, both kinds of variants, white space anywhere, any nesting) gives the same value by both, except that non-negative numbers are unsigned in the parsed one (plain equality is refuted by 5, an i32 for the macro).", "quantifier": "all such texts, all expression parsers that behave like rustc's, all literals whose values agree", "why_tests_cant": "all nestings and layouts", "anchors": ["src/macros.rs:value!", "src/string_impls/from_string.rs:FromStrBuilder::parse"]}
{"id": "C73", "title": "Memory reserved by decoding", "statement": "When decoding succeeds, the capacities reserved are exactly the lengths of the lists of the resulting value. The tracing decoder never reserves room for more than 100 million values in one list, or the number of named fields of a type of the registry, so with an allocator that grants this it always returns. The claims that the plain decoder always returns, and that the tracing decoder's reservations are bounded in total, are refuted: at every sequence type at most nine bytes make the plain decoder ask for any capacity a length prefix can say, before an item is read; each four bytes make the tracing decoder reserve another 100 million.", "quantifier": "all registries, types, inputs (accepted or not) and allocator limits", "why_tests_cant": "all inputs; failures depend on the allocator", "anchors": ["src/scale_impls/decode.rs:to_unnamed_composite!, visit_composite", "src/scale_impls/tracing_decoder/visitor.rs:MAX_CAPACITY, to_unnamed_composite!, visit_composite"]}
{"id": "C74", "title": "Size of decoded values", "statement": "The number of values in a decoded value is at most linear in the number of bytes read (with constants of the registry), provided no item of a sequence can be encoded in zero bytes; and so is what decoding reserves. At a sequence whose items can (Vec<()>), at most nine bytes decode to as many items as a length prefix can say (refuted). Text, 256-bit integers and bits never take more bytes than were read.", "quantifier": "all registries, types and inputs", "why_tests_cant": "all inputs and sizes", "anchors": ["src/scale_impls/decode.rs"]}
{"id": "C75", "title": "Reading any self-describing document", "statement": "Which value a document of any self-describing format (booleans, integers, chars, strings, lists, string-keyed maps, bytes, null, options, enums, floats) is read as: exactly the one given by a small relation (null and bytes are unnamed composites, options are Some/None variants, a map whose only key is the reserved one is a bit sequence, and so on), likewise for Composite, Variant and Primitive; it is refused only because of a float, an enum without contents or with contents that are no fields, or non-booleans under the reserved key, and a float anywhere refuses the whole document. A document of booleans, integers, strings, lists and maps is always read, and written again gives the same document; with nulls or options in it, it does not (refuted: null comes back as an empty list).", "quantifier": "all documents, of any nesting", "why_tests_cant": "unboundedly many documents", "anchors": ["src/serde_impls/deserialize.rs", "src/serde_impls/bitvec_helpers.rs", "src/serde_impls/serialize.rs"]}
{"id": "C76", "title": "Serde: maps", "statement": "A map with string keys is read from the named fields of a composite or variant and from nothing else: every field must be readable, the last of several fields with one name counts, the entries are sorted; with chars as keys every name must be one char. So fields with the same name are silently lost (refuted).", "quantifier": "all values, key lists and element types", "why_tests_cant": "all key lists", "anchors": ["src/serde_impls/deserializer.rs:deserialize_map"]}
{"id": "C77", "title": "The complete rules of encoding", "statement": "Encoding a value at a type succeeds exactly when the value fits the type, and the bytes appended are exactly those of a relation that lists every rule: numbers and chars at integer and compact types, 256-bit numbers as 32 bytes, strings, bits, variants by name behind unnamed wrappers, fields by name or by position, one-value composites, and which way of taking a composite (as it is, inside the wrappers, its only value) goes first. Every other value is refused with an error; encode_as_fields likewise. Putting a primitive, bit sequence or variant in a one-value composite changes nothing; around a composite this fails, and what fits a struct need not fit a one-field struct around it (both refuted).", "quantifier": "all values, registries without a type that wraps itself, types and output buffers", "why_tests_cant": "unboundedly many shapes of values and types", "anchors": ["src/scale_impls/encode.rs"]}
{"id": "C78", "title": "Work done by parsing", "statement": "Parsing a text asks for at most 80 characters per character of the text plus one round of calls of the custom parsers each (re-reading after backtracking included), whatever the custom parsers do: linear work, no blow-up by backtracking. The recursion is at most one deeper than the number of opening brackets in the text, but nothing else limits it: n opening brackets make n+1 calls active at once (the claim of a depth limit is refuted).", "quantifier": "all texts and all custom parsers", "why_tests_cant": "the amount of work and the stack depth are not observable on a few small inputs", "anchors": ["src/string_impls/from_string.rs:parse_value", "src/string_impls/from_string.rs:parse_variant", "src/string_impls/from_string.rs:parse_named_composite"]}
{"id": "C79", "title": "Work and recursion of decoding", "statement": "Decoding a type from bytes recurses at most 1 + h + (1+R) levels per byte deep, where h and R bound how types nest in each other without a sequence or a variant in between; so it ends within that depth, whatever the bytes. If no item of a sequence can be encoded in zero bytes, it makes a number of calls linear in the number of bytes, whether it succeeds or fails. Both are reached from below: each value decoded is a call, each nesting a level. Nothing else limits them: for a recursive type no depth limit holds (refuted), and for sequences of zero-sized items nine bytes can cause any number of calls a length prefix can say (refuted).", "quantifier": "all registries, types and byte sequences", "why_tests_cant": "the work and the stack depth for hostile inputs of every length are not observable on a few small inputs", "anchors": ["src/scale_impls/decode.rs:decode_value_as_type", "src/scale_impls/decode.rs:DecodeValue", "src/scale_impls/decode.rs:visit_composite"]}
{"id": "C80", "title": "Size of formatted text", "statement": "Formatting a value on one line makes a number of calls to the writer, and writes a number of characters, linear in the number of values and of characters of strings and names and bits it holds (64 per value and 4 per character at most), whether the writer fails or not; at least one character per value and per character it holds is written. Over several lines it writes in addition at most two line breaks per value, each indented no deeper than the value: that this too is linear is refuted, n brackets inside each other take more than n*n characters.", "quantifier": "all values a Rust Value can hold, all styles and indents, all writers, failing ones included", "why_tests_cant": "the growth of the output is not visible on a few small values", "anchors": ["src/string_impls/to_string.rs:fmt_value", "src/string_impls/to_string.rs:write_newline", "src/string_impls/to_string.rs:fmt_string"]}
{"id": "C81", "title": "Equality and clone of values", "statement": "v == w holds exactly when v and w are the same tree (same kinds, variant names, field names in the same order, same number of fields, same leaves) with contexts that are == at the same places; when == on contexts is identity (as for Value<()>) it is identity of values. It is an equivalence whenever the context's == is one, a difference at any depth is noticed, and a clone equals its original. Equal values have the same text, the same encoding at every type and deserialise alike. The converse is false: 5u128 and 5i128 print and encode the same at every type but are not equal.", "quantifier": "every two values, every context type with every (possibly not even reflexive) equality, every registry, type, buffer and serde target", "why_tests_cant": "values nest without bound and the equality of contexts is a user's own code; tests compare a few small values", "anchors": ["src/value_type.rs: Value, ValueDef, Composite, Variant, Primitive (derive Clone, PartialEq, Eq)"]}
{"id": "C82", "title": "value! and the recursion limit", "statement": "Under a recursion limit L, value! compiles exactly when its input is in the grammar (to the same value as without a limit) and the number of nested expansions it needs is at most L. That number is determined by the input: two levels per unnamed field, two plus the number of key tokens per named field, a constant for every list of fields, plus the deepest field; so it adds up along the nesting, and is at most proportional to the number of tokens. With rustc's default limit of 128 a tuple of at most 62 expressions, a struct of at most 41 fields and at most 21 extra pairs of parentheses compile; no limit is enough for all inputs of the grammar.", "quantifier": "every input of the macro, every expression parser that works like rustc's, every recursion limit, every depth of the user's own macros and of vec!", "why_tests_cant": "macro tests compile a handful of small literals; the cost of the token muncher grows with every field and level", "anchors": ["src/macros.rs: value, value_internal, vec_wrapper"]}
{"id": "C83", "title": "Work of the tracing decoder", "statement": "The tracing decoder makes exactly the calls of the plain decoder on the same type and bytes, nested as deeply (fewer only if it stops at a list of more than 100,000,000 items), so the bounds of C79 hold for it too. To know where it is it copies its path at every item: at most five segments per call and level of recursion, so quadratically many in the number of bytes (for types with the bounds of C79) and not linearly many (refuted with a recursive type). It clones decoded values only to report an error, and no more values than the report shows; the value decoded, or shown as decoded so far, is no larger than the number of calls.", "quantifier": "all type registries with certificates of nesting and weight, all types, all bytes, all outcomes", "why_tests_cant": "tests can time one input; that path copies stay within calls times depth, and that they are quadratic, needs all inputs", "anchors": ["src/scale_impls/tracing_decoder/visitor.rs: to_unnamed_composite!, visit_variant, visit_composite", "src/scale_impls/tracing_decoder/path.rs: Path::at", "src/scale_impls/tracing_decoder/error.rs: with_outer_context"]}
{"id": "C84", "title": "Only the shape of a type matters", "statement": "Take two registries, perhaps with different kinds of type id, and any relation between their ids under which related ids are answered alike (same kind of type, same names, indices and lengths, related ids in the same places). Then at related ids encoding writes the same bytes or fails alike, decoding gives the same data and leaves the same bytes (or fails alike), the contexts being the related ids, and the tracing decoder reports the same cause at the same path with the same data so far. In particular renumbering all ids changes nothing but the ids in contexts, and adding, removing or changing types that are not parts of the type used changes nothing at all. Accepting the same byte strings is not enough for decoding to the same values (refuted).", "quantifier": "all pairs of type registries and relations between their ids, all values, bytes and types", "why_tests_cant": "a test uses one registry; that no result depends on the numbering or the rest of the registry is a statement about all of them", "anchors": ["src/scale_impls/encode.rs: encode_as_type_to, encode_as_fields_to", "src/scale_impls/decode.rs: decode_value_as_type, decode_composite_as_fields", "src/scale_impls/tracing_decoder/visitor.rs: TraceDecodingVisitor"]}
{"id": "C85", "title": "The cursor after decoding fields", "statement": "scale::decode_as_fields moves the caller's cursor over exactly what was decoded on success and leaves it where it was on failure. The DecodeAsFields implementations for Composite and Value do the same on success; on failure they leave it at the start of the first field that could not be decoded, so the claim that they keep the cursor is refuted. None of them panics (the expect on a field's name is never reached without one).", "quantifier": "all registries, lists of fields and byte strings, successes and failures", "why_tests_cant": "every failure point in every list of fields", "anchors": ["src/scale_impls/decode.rs:decode_composite_as_fields", "src/scale_impls/decode.rs:DecodeAsFields", "src/scale_impls/decode.rs:visit_composite"]}
{"id": "C86", "title": "The shipped custom parsers and formatter neither panic nor misuse unsafe", "statement": "parse_hex, parse_ss58 and format_hex, with their u8 arithmetic, indices, string and slice bounds and the expect made explicit, never panic or overflow on any text (any UTF-8 behind the part they read) or value; the bytes parse_hex passes to from_utf8_unchecked (the crate's only unsafe block) are always valid UTF-8; and what they return and where they leave the cursor is what the character-level model says.", "quantifier": "all texts, all base58 decoders and hashes of two bytes or more, all values and writers", "why_tests_cant": "every text, including multi-byte characters at every position", "anchors": ["src/string_impls/custom_parsers/hex.rs:parse_hex", "src/string_impls/custom_parsers/ss58.rs:parse_ss58_bytes", "src/string_impls/custom_formatters/hex.rs:format_hex"]}
{"id": "C87", "title": "Memory reserved by reading documents", "statement": "Reading a Value from a document of another format reserves, before looking at the items of a list or the values of a map, room for as many as the format announces; the announced sizes never change the result. If no list announces more than it has, no more is reserved altogether than there are items, whether reading succeeds or fails; every single reservation is an announced size. But nothing else limits it: a few bytes of a format with length prefixes can make it reserve any amount (bound refuted). Values of this crate announce honestly: reading a Value from one reserves less than the number of values inside; for named fields it is one too few (so 'enough' is refuted).", "quantifier": "all documents, announced sizes and points where the input breaks off", "why_tests_cant": "every document, every announced size, every point of failure", "anchors": ["src/serde_impls/deserialize.rs:CompositeVisitor", "src/serde_impls/bitvec_helpers.rs:MapOrBitSeqVisitor", "src/serde_impls/deserializer.rs:deserialize_any"]}
{"id": "C88", "title": "Builders after any history of calls", "statement": "After any calls in any order a ToWriterBuilder writes with the style, indents and context printer set last (initially one line with spaces, indent of two spaces, none, none) and tries all custom formatters that were added in the order they were added; nothing else about the history counts. Calls about different things commute; formatters do not (refuted), and once compact or pretty was chosen the initial style cannot be had again (refuted). A FromStrBuilder tries its parsers in the order they were added. A builder without calls writes what {} does, and with pretty() what {:#} does.", "quantifier": "all finite histories of builder calls, all values and writers", "why_tests_cant": "histories of any length", "anchors": ["src/string_impls/to_string.rs:ToWriterBuilder", "src/string_impls/from_string.rs:FromStrBuilder", "src/lib.rs:to_writer_custom"]}
{"id": "C89", "title": "Newtype structs are read as their content", "statement": "Reading a value as a newtype struct W(A) gives exactly what reading it as A gives, the same content or the same kind of error, for every value but bit sequences and every A, except that for variants A must not itself be an Option or a struct. Bit sequences are never read as a newtype (refuted), a newtype around an Option is never read from anything (refuted), and a newtype around a struct is read from a variant's fields although the struct alone is not (refuted).", "quantifier": "all values and all types of the universe", "why_tests_cant": "all target types, nested to any depth, and all values", "anchors": ["src/serde_impls/deserializer.rs:deserialize_newtype_struct", "src/lib.rs:from_value"]}
{"id": "C90", "title": "Encode errors are true", "statement": "Whatever error encoding a value as a type reports, its path leads to a value inside and to the type that value should have, and what the error says holds for the two: the registry fails for the type, the number is outside the range of the integer type, a field named in the type is missing, the number of values is not that of the fields or of the array, the enum has no such variant, a value is not a bit, or the kind of type does not take such values. Likewise when encoding as fields. Conversely every value offered for a type the registry fails to resolve, also behind wrappers, gets the resolving error, one unknown to the registry the wrong shape error, and the output is left alone.", "quantifier": "all registries, values, types, dependency behaviours and outputs", "why_tests_cant": "all values, registries and nestings", "anchors": ["src/scale_impls/encode.rs:encode_composite", "src/scale_impls/encode.rs:encode_variant", "src/scale_impls/encode.rs:encode_primitive", "src/scale_impls/encode.rs:encode_as_fields_to"]}
{"id": "C91", "title": "Decode errors are true, and what is wrong is reported", "statement": "If decoding bytes as a type fails, then reading the bytes one comes, past items that are all present and well formed, to an item where what the error says is the case: the registry does not know the type or fails to resolve it, the bytes end before the item does, a bool is neither 0 nor 1, a character is no Unicode scalar value, a string is not UTF-8, an enum has no variant with the index, a length prefix is not a compact integer in shortest form and in range, a type inside a compact type is no unsigned integer, or there are more bits than can be stored. Conversely whatever is wrong at such an item is what decoding reports, so at most one thing is wrong with an input and nothing with one that decodes. Likewise for decoding fields. What an error of the tracing decoder says is the case at the very item it points to; its own capacity limit is reported only for an item with more than 100,000,000 children.", "quantifier": "all registries, types, byte strings and dependency behaviours", "why_tests_cant": "all byte strings and registries, recursive ones included", "anchors": ["src/scale_impls/decode.rs:decode_value_as_type", "src/scale_impls/decode.rs:decode_composite_as_fields", "src/scale_impls/tracing_decoder/visitor.rs:TraceDecodingVisitor"]}
{"id": "C92", "title": "Custom parsers with memory", "statement": "Custom parsers whose answers depend on what happened before are asked about places of the text one strictly behind the other, never twice about the same place, from whatever memory they start with. So on every text parsing gives what it gives with some custom parser without memory that gives the same answers; in particular it always ends, leaves an end of the text and, if the custom parsers' errors always lie in the text they were asked about, reports errors within the text. Parsers that do not use their memory behave as described elsewhere. Parsing the same text twice need not give the same (refuted).", "quantifier": "all histories: memories, custom parsers as state machines, and texts", "why_tests_cant": "the answers may depend on every earlier call", "anchors": ["src/string_impls/from_string.rs:parse_value", "src/string_impls/from_string.rs:FromStrBuilder"]}
{"id": "C93", "title": "Complete rules of from_value", "statement": "For every type of the universe (booleans, integers, chars, strings, units, byte buffers, options, sequences, tuples, maps, unit, newtype and tuple structs, structs, enums, and the crate's own Value, Composite, Variant and Primitive, nested in any way) from_value succeeds exactly when one set of rules allows it and with exactly the data the rules give; the rules never allow two answers, and where they allow none the call fails. The same holds for reading from a Composite, a Variant or a Primitive directly. A bit sequence can be read only as a Value, a Composite or a struct all of whose fields other than one with the reserved name are optional.", "quantifier": "all types, all values, all results", "why_tests_cant": "types nest without bound, and what a type accepts depends on where it stands", "anchors": ["src/serde_impls/deserializer.rs", "src/serde_impls/deserialize.rs", "src/lib.rs:from_value"]}
{"id": "C94", "title": "Complete rules of to_value", "statement": "For every type of the universe and every datum of it, to_value succeeds, and with exactly the value that one set of rules gives: scalars keep their kind (integers keep the sign and lose the width), units become empty composites, bytes, sequences and tuples unnamed composites, maps and structs named composites in the same order, options and enum variants variants of the same name, newtypes composites with one field; values of this crate are spelt out, with variants as maps of name and values, bit sequences under the reserved key and 256-bit integers as lists of bytes.", "quantifier": "all types, all data of them", "why_tests_cant": "types and data nest without bound", "anchors": ["src/serde_impls/serializer.rs", "src/serde_impls/serialize.rs", "src/lib.rs:to_value"]}
{"id": "C95", "title": "Data of one Rust type read as another", "statement": "Data written with to_value as one type and read with from_value as another: whenever the types fit (integers only get wider, structs gain only optional fields and may lose or reorder fields, enums only gain variants, chars become strings, tuples and byte buffers sequences, structs maps, tuples the fields of a struct by position, a newtype variant a struct variant, anything but an option a newtype around itself, and this inside any nesting) it never fails, and the result is the only one the conversion rules allow. A type need not fit itself: newtypes do not come back.", "quantifier": "all pairs of types that fit, all data", "why_tests_cant": "pairs of types nest without bound", "anchors": ["src/lib.rs:to_value", "src/lib.rs:from_value", "src/serde_impls/serializer.rs", "src/serde_impls/deserializer.rs"]}
{"id": "C96", "title": "Documents with newtypes and keys of any kind", "statement": "Reading a Value, Composite, Variant or Primitive from any document of a self-describing format that may wrap anything in newtypes and may use anything as a map key or variant name gives exactly what one set of rules allows: newtypes are transparent for values and composites (not for variants and primitives: refuted), keys and names are whatever reads as text (strings, chars, bytes in UTF-8), and a map with another key is refused (refuted: integer-keyed maps cannot be read). A map that starts with the reserved key is read as bits or not at all, and what follows is dropped or refused depending on the format.", "quantifier": "all documents, formats that do and do not insist on reading maps to their end", "why_tests_cant": "documents nest without bound", "anchors": ["src/serde_impls/deserialize.rs:ValueDefVisitor", "src/serde_impls/deserialize.rs:CompositeVisitor", "src/serde_impls/deserialize.rs:VariantVisitor", "src/serde_impls/deserialize.rs:PrimitiveVisitor", "src/serde_impls/bitvec_helpers.rs:MapOrBitSeqVisitor"]}
{"id": "C97", "title": "Texts of deserializer errors", "statement": "Every refusal the crate's own deserializer makes carries exactly one text determined by the value and by what was asked for: both lengths of a tuple mismatch are the true ones, the named unit struct or enum is the one asked for, bits are called bits, and byte conversion fails for the reason given, at the first value that is no byte; only the claim that values are non-numeric is untrue for signed and 256-bit numbers (refuted). The text that a map must contain name and values is given exactly to maps that would be a variant but lack one of them.", "quantifier": "all values, all requests, all names; all documents", "why_tests_cant": "values and documents nest without bound", "anchors": ["src/serde_impls/deserializer.rs:DeserializerError", "src/serde_impls/deserializer.rs:Deserializer for ValueDef", "src/serde_impls/deserializer.rs:Deserializer for Composite", "src/serde_impls/deserialize.rs:VariantVisitor::visit_map", "src/serde_impls/serializer.rs:SerializerError"]}
{"id": "C98", "title": "Sinks, formatters and printers that do and remember anything", "statement": "Whatever the writer, the custom formatters and the context printer do, remember or write, ToWriterBuilder::write goes by fixed rules: context first (between < and > ), then the formatters in order until one answers, then the texts and inner values of the layout in order, and nothing after the first failure; for writers that do not care in how many pieces a text arrives the outcome is determined. A formatter is asked exactly once about each value that is not inside one it answered for, in the order of the text. What a formatter writes before it declines stays (declining is silent is refuted).", "quantifier": "all values, styles, indents, writers, formatters and printers with any state, all histories of failures", "why_tests_cant": "formatters and writers are arbitrary code with memory; a test has one of each", "anchors": ["src/string_impls/to_string.rs:ToWriterBuilder::write", "src/string_impls/to_string.rs:fmt_value", "src/string_impls/to_string.rs:Formatter::print_custom_format", "src/string_impls/to_string.rs:Formatter::print_context"]}
{"id": "C99", "title": "The crate's own expects never panic", "statement": "Decoding (to a value or to the fields of a composite) never unwraps a missing field name, finding the single field of a wrapper never unwraps a missing field, and deserializing an option never pops from nothing: for every type registry (however broken), every input and every value the call runs to its answer. Shifting the locations of a custom parser's error never overflows if the parser locates its errors in the text it was given (and can overflow if it does not: refuted).", "quantifier": "all registries, types, bytes, values, custom parsers and texts", "why_tests_cant": "the registry is given by the user and may mix named and unnamed fields in ways no test has; panics hide in rare shapes", "anchors": ["src/scale_impls/decode.rs:visit_composite", "src/scale_impls/encode.rs:find_single_entry_with_same_repr", "src/serde_impls/deserializer.rs:deserialize_option", "src/string_impls/from_string.rs:parse_value"]}
{"id": "C100", "title": "Types that grow", "statement": "When enums get more variants (anywhere in the list, with indices that were free) and missing types appear, whatever the old registry could decode the new one decodes to the same value. What the new registry decodes the old one decodes to the same value or refuses, never to another: for an unknown variant index, and then a new variant is in the data, or for an unknown type. Values that do not mention a new variant are encoded alike by both (same bytes, same errors), and decoded alike whichever wrote them. A value that mentions a new variant can be encoded by both, differently (refuted).", "quantifier": "all registries and successors, types, bytes, values and outputs", "why_tests_cant": "metadata upgrades add variants to arbitrary enums in arbitrary registries; tests fix one registry", "anchors": ["src/scale_impls/decode.rs:decode_value_as_type", "src/scale_impls/encode.rs:encode_variant", "src/scale_impls/encode.rs:encode_composite"]}
{"id": "C101", "title": "Streams of values and input that ends too early", "statement": "Values encoded one behind the other into one buffer (cutting it back when one fails) are exactly those whose encoding alone succeeds, and decoding the buffer gives back their data in order, whatever follows. Cut after any number of bytes, exactly the values wholly in front of the cut are read, then the reader gets one of the two errors that stand for missing input, and the broken value's bytes are still there. More input behind never changes what was decoded, nor any other error (for the tracing decoder: nor its place or its partial value). Texts written one per line in any style read back line by line; a cut text may be the text of another value (refuted).", "quantifier": "all registries, types, lists of values, cut points, byte suffixes, styles and indents", "why_tests_cant": "a crash may cut a log at any byte of any sequence of values of any types; tests cut one example", "anchors": ["src/scale_impls/decode.rs:decode_value_as_type", "src/scale_impls/encode.rs:encode_as_type_to", "src/scale_impls/tracing_decoder/visitor.rs:TraceDecodingVisitor", "src/string_impls/from_string.rs:FromStrBuilder::parse"]}
{"id": "C102", "title": "Editing decoded values", "statement": "Each part of a decoded value (reached through structs, tuples, variants, sequences and arrays) has its own stretch of the bytes, which alone decodes to it at the type whose id it carries; valid bytes of that type put in its stead decode to the value with just that part replaced. Encoding a decoded value in which a part was replaced by another decoded value changes just that stretch, and the result decodes to the edited value; pushing an element onto a sequence changes the length in front and puts the element's bytes behind. Below a Compact the type id a part carries is not how its bytes are made (refuted).", "quantifier": "all registries, types, bytes, values, places and replacements", "why_tests_cant": "the part may lie anywhere in any value of any type, and its replacement may have any length; tests edit one field of one struct", "anchors": ["src/scale_impls/decode.rs:decode_value_as_type", "src/scale_impls/encode.rs:encode_composite", "src/scale_impls/encode.rs:encode_variant", "src/value_type.rs:Value"]}
{"id": "C103", "title": "Migrating data between types", "statement": "A value decoded at a type of one registry is accepted by the encoder at a type of another registry whenever that type has room for everything (wider, signed or compact integers; structs with fields reordered, left out or renamed positions; enums with other indices, orders and more variants; arrays as sequences; newtypes added, nested or removed; at any depth and for recursive types), and the bytes decode there to the same data: elements go to elements in order, fields to the fields of their names, variants to the variant of their name under its new index. An integer type that does not hold all values is refused for some (refuted).", "quantifier": "all pairs of registries, all relations between their types that follow the rules, all types, bytes and values", "why_tests_cant": "the pair of type systems and the data are arbitrary, and both may be recursive; tests migrate one value between two types", "anchors": ["src/scale_impls/decode.rs:decode_value_as_type", "src/scale_impls/encode.rs:encode_composite", "src/scale_impls/encode.rs:encode_variant", "src/scale_impls/encode.rs:encode_primitive"]}
{"id": "C104", "title": "Text that is not finished", "statement": "When a text is refused, the error says whether anything appended could make it a value: some continuation makes it one exactly when the error is located at the end of the text (for a wrong escape code in a char: when the text ends in the backslash), or no value was found where the text has only the beginning of a variant's name; in all other cases every longer text is refused for the same reason at the same place. A value read with text left behind it is read from every longer text, too. The location alone does not tell either way (refuted).", "quantifier": "all texts, all texts appended", "why_tests_cant": "the claim is about all continuations of all refused texts, and about the existence of one; tests try some", "anchors": ["src/string_impls/from_string.rs:parse_value", "src/string_impls/from_string.rs:parse_variant", "src/string_impls/from_string.rs:parse_char", "src/string_impls/from_string.rs:parse_number"]}
{"id": "C105", "title": "Putting one text into another", "statement": "In the text of a value every part that at finds has its place: there stands a text of that part, and putting any text of any value there instead gives a text of the value with that part replaced and nothing else changed; a string or char in the form Display gives it is therefore safe at any place, whatever it contains. The one-line text of a value (with contexts, too) is made of the texts of its parts in the same way. A text that is not the text of one value can change more than the part (refuted).", "quantifier": "all texts read without error, all positions in the value read, all texts or values put there", "why_tests_cant": "the claim is about every text, every position in it and everything that could be put there; tests try some", "anchors": ["src/string_impls/from_string.rs:parse_value", "src/string_impls/to_string.rs:fmt_value", "src/string_impls/to_string.rs:fmt_string", "src/at.rs:At"]}
{"id": "C106", "title": "Editing with any value", "statement": "When a part of a decoded value is replaced by any value that can be encoded at the part's type (not only by one of the form decoding gives), the edited value can be encoded, the bytes of the new part stand where those of the old part stood, and no other byte changes; what is read back is the old value with only that part replaced, by what the new bytes read back as. Where a list stands in two newtypes around each other this is false (refuted).", "quantifier": "all registries, types and byte strings, all parts of the value read, all values that can be encoded in their place", "why_tests_cant": "the claim is about every registry, every place in a value and every value put there; tests try some", "anchors": ["src/scale_impls/decode.rs:decode_value_as_type", "src/scale_impls/encode.rs:encode_composite", "src/scale_impls/encode.rs:encode_variant", "src/lib.rs:Value"]}
{"id": "C107", "title": "Text as an editing interface for SCALE data", "statement": "A value decoded from bytes is displayed. Every part at a place of the type has its place in the text, where the displayed text of the part stands. If a user puts any text of any value there that can be encoded at the part's type, the whole is again the text of one value, and that value encodes to the old bytes with exactly those of the part replaced by the new ones. The same holds for every other layout of the text.", "quantifier": "all registries of speakable types, types, byte strings, parts of the value read, and texts put in their place", "why_tests_cant": "the claim is about every value, every place in its text and every text a user may write there; it joins parser, printer, decoder and encoder, which tests exercise apart", "anchors": ["src/string_impls/from_string.rs:parse_value", "src/string_impls/to_string.rs:fmt_value", "src/scale_impls/decode.rs:decode_value_as_type", "src/scale_impls/encode.rs:encode_composite", "src/lib.rs:Value"]}
{"id": "C108", "title": "The text of a value identifies it", "statement": "Two values whose texts coincide, in the same or in different layouts, are the same value up to contexts and the type of nonnegative integers, and encode alike at every type. Of values decoded at one type, those with equal texts are equal outright, and were read from equally many bytes, the same ones if the type has no bit sequences. Displaying what a text reads as gives its normal form, and two texts have the same normal form exactly if they denote the same value.", "quantifier": "all pairs of values, layouts, registries of speakable types, types and byte strings", "why_tests_cant": "the claim compares any two values: a test can show only that particular texts differ", "anchors": ["src/string_impls/to_string.rs:fmt_value", "src/string_impls/from_string.rs:parse_value", "src/scale_impls/decode.rs:decode_value_as_type", "src/scale_impls/encode.rs:encode_as_type_to", "src/lib.rs:Value"]}
{"id": "C109", "title": "SCALE data as JSON", "statement": "A value is serialised as JSON text and read back as a Value: what comes back is the value with contexts dropped, characters turned into strings, nonnegative integers unsigned, variants turned into maps and 256-bit integers into lists; a single integer outside -2^63..2^64 makes the whole text unreadable. Without variants, characters and 256-bit integers, what comes back encodes like the value at every type, so SCALE bytes of types without enums, characters and integers above 64 bits survive the way through JSON. An enum has to be read as a Variant; read as a Value it cannot be encoded any more, nor can a character.", "quantifier": "all values; all registries, types and byte strings", "why_tests_cant": "the claim is about every value and every type; it joins the serializer, the deserializer, the decoder and the encoder, which tests exercise on single values", "anchors": ["src/serde_impls/serialize.rs:Serialize for Value", "src/serde_impls/deserialize.rs:Deserialize for Value", "src/scale_impls/encode.rs:encode_composite", "src/scale_impls/decode.rs:decode_value_as_type"]}
{"id": "C110", "title": "Order and names of fields at any depth", "statement": "Take a value that was decoded at a type and rearrange it anywhere inside: put the named fields of structs and variants into another order, leave out their names keeping their order (not that of the only field of a struct), give integers with the other sign of their type, bit sequences as lists of booleans or of 0 and 1, change all contexts. It is still encoded at the type, to the bytes it came from. In particular SCALE bytes survive the way through JSON whatever is done to the order of the entries of its objects (types without enums, characters, integers above 64 bits and fields named like the bit sequence marker). Of values that were not decoded at the type, and of the name of an only field, this is not true.", "quantifier": "all registries for which encoding undoes decoding, types, byte strings and rearrangements at any depth", "why_tests_cant": "tests reorder the fields of single flat structs; that no inner struct, variant, list or wrapper type is affected needs an induction over types, values and the encoder's guesses", "anchors": ["src/scale_impls/encode.rs:encode_composite", "src/scale_impls/encode.rs:encode_variant", "src/scale_impls/encode.rs:encode_composite_fields", "src/scale_impls/decode.rs:decode_value_as_type", "src/serde_impls/deserialize.rs:Deserialize for Value"]}
{"id": "C111", "title": "Reading Rust data back after reordering its fields", "statement": "Data of a Rust type is written with to_value, the named fields of the value (struct fields, map entries, fields of enum variants) are put into another order at any depth and its contexts changed, and the result is read with from_value as the same type or any type that fits it (C95). The data read is the same as without the reordering. Types that read named fields by position (a struct read as a tuple) and Value itself do see the order.", "quantifier": "all pairs of fitting types of the serde universe, all data, all reorderings at any depth, all contexts", "why_tests_cant": "tests reorder one flat struct; that nested structs, maps, enum variants, newtypes and options stay readable in every order needs an induction over types", "anchors": ["src/lib.rs:to_value", "src/lib.rs:from_value", "src/serde_impls/serializer.rs", "src/serde_impls/deserializer.rs"]}
{"id": "C112", "title": "Parts of Rust data in its value", "statement": "For data x with a part y reached through fields, map entries, list and tuple positions, newtypes, options and enum variants: in the value made of x with to_value, at_path with those names and positions finds exactly the value made of y, and it can be read on its own with from_value. Replacing the value found there by the value of other data of the part's type gives the value of the changed x, and from_value reads the changed x from it. (Parts inside data that is itself a Value are found elsewhere, since to_value writes variants as maps.)", "quantifier": "all types of the serde universe with distinct names, all data, all paths to parts, all replacements", "why_tests_cant": "tests look up one field of one small struct; that names and positions of Rust data and of its value agree at any depth, and that nothing else changes on replacement, needs an induction over types", "anchors": ["src/at.rs:at", "src/lib.rs:to_value", "src/lib.rs:from_value", "src/serde_impls/serializer.rs"]}
{"id": "C113", "title": "Rust data edited where they lie, in values and in text", "statement": "A value made of Rust data with to_value holds every part (field, element, map entry, option content, field of an enum variant) at its place, and still does after being printed in any layout and parsed. Whatever value is put in the place of a part: if from_value reads it as y' at the part's type, the whole is read as the data with y' as that part and nothing else changed; any history of such edits is read as the data edited alike. In text: the part has its piece of the text, and any text which is parsed and read as y' can be put there. The same holds starting from SCALE bytes of the data, decoded and printed. A value from which the data are merely read (fields in another order) does not have this property (refuted).", "quantifier": "all types that round trip (C40) without Value-like parts, all data, paths, replacements (values or texts), layouts and histories of edits", "why_tests_cant": "tests edit one text by hand; that an edit anywhere changes exactly that part of the data read needs an induction over types and over the grammar of text", "anchors": ["src/lib.rs:to_value", "src/lib.rs:from_value", "src/at.rs:at", "src/lib.rs:stringify", "src/string_impls/from_string.rs", "src/string_impls/to_string.rs", "src/serde_impls/serializer.rs", "src/serde_impls/deserializer.rs"]}
