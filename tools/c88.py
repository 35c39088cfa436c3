from addp import add
add("C88","Builders after any history of calls","After any calls in any order a ToWriterBuilder writes with the style, indents and context printer set last (initially one line with spaces, indent of two spaces, none, none) and tries all custom formatters that were added in the order they were added; nothing else about the history counts. Calls about different things commute; formatters do not (refuted), and once compact or pretty was chosen the initial style cannot be had again (refuted). A FromStrBuilder tries its parsers in the order they were added. A builder without calls writes what {} does, and with pretty() what {:#} does.",
 "all finite histories of builder calls, all values and writers","histories of any length",
 ["src/string_impls/to_string.rs:ToWriterBuilder","src/string_impls/from_string.rs:FromStrBuilder","src/lib.rs:to_writer_custom"],
 "a step function per call, folded over the history; the specification `settled` says 'the last call that sets it' without reference to the fold",
 """* C88 (`Props_Builder.v`, `Builder.v`): the builders as state machines; induction on the history.
""",[("| `Fmt.v` |","| `Builder.v` | `ToWriterBuilder`, `FromStrBuilder` driven by histories of calls |")])
