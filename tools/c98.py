from addp import add
add("C98","Sinks, formatters and printers that do and remember anything","Whatever the writer, the custom formatters and the context printer do, remember or write, ToWriterBuilder::write goes by fixed rules: context first (between < and > ), then the formatters in order until one answers, then the texts and inner values of the layout in order, and nothing after the first failure; for writers that do not care in how many pieces a text arrives the outcome is determined. A formatter is asked exactly once about each value that is not inside one it answered for, in the order of the text. What a formatter writes before it declines stays (declining is silent is refuted).",
 "all values, styles, indents, writers, formatters and printers with any state, all histories of failures","formatters and writers are arbitrary code with memory; a test has one of each",
 ["src/string_impls/to_string.rs:ToWriterBuilder::write","src/string_impls/to_string.rs:fmt_value","src/string_impls/to_string.rs:Formatter::print_custom_format","src/string_impls/to_string.rs:Formatter::print_context"],
 "formatters that panic or call the builder again are not modelled",
 """* C98 (`Props_FmtTalk.v`, `Spec_FmtTalk.v`): the state `W` of the formatter model holds the writer and all memory. Rules of a whole writing session as a
  mutual inductive relation over a table of layout items; the formatter obeys them (induction on the value), they are deterministic for writers that do not
  care about pieces (rule induction), and the questions are the reached nodes in lexicographic order of their paths.
""",[])
s=open('/tmp/gen/props.py').read()
s=s.replace("siblings never share state.\"","siblings never share state. What the clones of a closure do share (a cell, a log) they see through calls made exactly once per value, in the order of the text.\"",1)
s=s.replace("all closures and closure states\"","all closures, states they own and states their clones share\"",1)
open('/tmp/gen/props.py','w').write(s)
d=open('/verif/DESIGN.md').read()
i=d.index('C01'); print(d[i-200:i+500])
