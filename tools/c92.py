from addp import add
add("C92","Custom parsers with memory","Custom parsers whose answers depend on what happened before are asked about places of the text one strictly behind the other, never twice about the same place, from whatever memory they start with. So on every text parsing gives what it gives with some custom parser without memory that gives the same answers; in particular it always ends, leaves an end of the text and, if the custom parsers' errors always lie in the text they were asked about, reports errors within the text. Parsers that do not use their memory behave as described elsewhere. Parsing the same text twice need not give the same (refuted).",
 "all histories: memories, custom parsers as state machines, and texts","the answers may depend on every earlier call",
 ["src/string_impls/from_string.rs:parse_value","src/string_impls/from_string.rs:FromStrBuilder"],
 "ParseState.v writes the recursive part of the parser again with a memory threaded through; the built-in parsers are shared with Parse.v",
 """* C92 (`Props_Memory.v`, `Spec_Memory.v`): simulation between the parser with memory and the one without, by induction on the fuel; positions
  decrease strictly, so the conversation is a function of the text.
""",[("| `from_string.rs","| `from_string.rs` (custom parsers with memory) | `ParseState.v` |")] if False else [])
