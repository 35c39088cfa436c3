from addp import add
add("C101","Streams of values and input that ends too early","Values encoded one behind the other into one buffer (cutting it back when one fails) are exactly those whose encoding alone succeeds, and decoding the buffer gives back their data in order, whatever follows. Cut after any number of bytes, exactly the values wholly in front of the cut are read, then the reader gets one of the two errors that stand for missing input, and the broken value's bytes are still there. More input behind never changes what was decoded, nor any other error (for the tracing decoder: nor its place or its partial value). Texts written one per line in any style read back line by line; a cut text may be the text of another value (refuted).",
 "all registries, types, lists of values, cut points, byte suffixes, styles and indents","a crash may cut a log at any byte of any sequence of values of any types; tests cut one example",
 ["src/scale_impls/decode.rs:decode_value_as_type","src/scale_impls/encode.rs:encode_value_as_type","src/scale_impls/tracing_decoder/visitor.rs:TraceDecodingVisitor","src/string_impls/from_string.rs:FromStrBuilder::parse"],
 "the two errors for missing input are a coarse model of scale-decode's (NotEnoughInput and CodecError)",
 """* C101 (`Props_Streams.v`, `Spec_Streams.v`, `StreamFacts.v`): a relation between decoding `bs` and `bs ++ q` (missing input, same result with `q` behind, same error)
  by induction on the fuel for both decoders; client loops over lists of values by induction, using C64 and C27; lines by induction from C04.
""",[])
