[{"id": "SH1", "file": "MapShared", "definition": "in_turn", "old": "let (b, g1) := h a g in let (r, g2) := go l' g1 in (b :: r, g2)", "new": "let (r, g1) := go l' g in let (b, g2) := h a g1 in (b :: r, g2)", "claim": "children are mapped first to last (C01)", "targets": ["Props_Shared"]}, {"id": "SH2", "file": "MapShared", "definition": "in_turn", "old": "let (r, g2) := go l' g1 in (b :: r, g2)", "new": "let (r, g2) := go l' g in (b :: r, g2)", "claim": "what is shared is handed on (C01)", "targets": ["Props_Shared"]}, {"id": "SH3", "file": "MapShared", "definition": "map_shared", "old": "(fun c g => map_shared f s1 c g) d g1 in", "new": "(fun c g => map_shared f s c g) d g1 in", "claim": "children get the closure as it is after the call for their parent (C01)", "targets": ["Props_Shared"]}, {"id": "SH4", "file": "MapShared", "definition": "map_shared", "old": "d g1 in (Val d' u, g2)", "new": "d g in (Val d' u, g2)", "claim": "the parent's call comes before those of the children (C01)", "targets": ["Props_Shared"]}, {"id": "SH5", "file": "MapShared", "definition": "map_shared", "old": "d g1 in (Val d' u, g2)", "new": "d g1 in (Val d' u, g1)", "claim": "shared effects of the children stay (C01)", "targets": ["Props_Shared"]}, {"id": "SH6", "file": "MapShared", "definition": "composite_in_turn", "old": "((fst kv, b), g')) l g in (Named r, g')", "new": "((fst kv, b), g')) (rev l) g in (Named r, g')", "claim": "field order (C01)", "targets": ["Props_Shared"]}, {"id": "FT1", "file": "Fmt", "definition": "fmt_value", "old": "             | (None, f') => fmt_valuedef fmt_value d f'\n", "new": "             | (None, _) => fmt_valuedef fmt_value d f\n", "claim": "what a declining formatter wrote stays (C98)", "targets": ["Props_FmtTalk"]}, {"id": "FT2", "file": "Fmt", "definition": "run_formatters", "old": "| (None, w) => run_formatters fs' v (FS w (fstyle f))", "new": "| (None, w) => run_formatters fs' v f", "claim": "what a declining formatter wrote stays (C98)", "targets": ["Props_FmtTalk"]}, {"id": "FT3", "file": "Fmt", "definition": "run_formatters", "old": "| (Some ok, w) => (Some ok, FS w (fstyle f))", "new": "| (Some ok, w) => (Some true, FS w (fstyle f))", "claim": "errors of formatters are reported (C98)", "targets": ["Props_FmtTalk"]}, {"id": "FT4", "file": "Fmt", "definition": "fmt_context", "old": "(FS w (fstyle f), ok)) (write_str (s2l \"> \")))", "new": "(FS w (fstyle f), true)) (write_str (s2l \"> \")))", "claim": "errors of the context printer are reported (C98)", "targets": ["Props_FmtTalk"]}, {"id": "FT5", "file": "Fmt", "definition": "fmt_value", "old": "        andthen (fmt_context c)\n          (fun f =>\n             match run_formatters (custom_formatters cfg) v f with\n             | (Some ok, f') => (f', ok)\n             | (None, f') => fmt_valuedef fmt_value d f'\n             end)", "new": "        (fun f =>\n             match run_formatters (custom_formatters cfg) v f with\n             | (Some ok, f') => (f', ok)\n             | (None, f') => andthen (fmt_context c) (fmt_valuedef fmt_value d) f'\n             end)", "claim": "the context comes before the custom formatters (C98)", "targets": ["Props_FmtTalk"]}, {"id": "FT6", "file": "Fmt", "definition": "andthen", "old": "let (f', ok) := a f in if ok then b f' else (f', false)", "new": "let (f', ok) := a f in let (f2, ok2) := b f' in (f2, ok && ok2)", "claim": "nothing is written after a failure (C98)", "targets": ["Props_FmtTalk"]}, {"id": "FT7", "file": "Fmt", "definition": "unindent_step", "old": "Pretty n => Pretty (Nat.pred n)", "new": "Pretty n => Pretty n", "claim": "the indent is taken back (C98)", "targets": ["Props_FmtTalk"]}, {"id": "FT8", "file": "Fmt", "definition": "run_formatters", "old": "| g :: fs' =>\n        match g v (writer f) with", "new": "| g :: fs' =>\n        match (let (_, w) := g v (writer f) in g v w) with", "claim": "each formatter is asked once (C98)", "targets": ["Props_FmtTalk"]}, {"id": "FT9", "file": "Fmt", "definition": "fmt_composite", "old": "(andthen (fmt_items fv l)", "new": "(andthen (fmt_items fv (rev l))", "claim": "items in order (C98)", "targets": ["Props_FmtTalk"]}, {"id": "FT10", "file": "Fmt", "definition": "fmt_field", "old": "andthen (fmt_name (fst kv)) (andthen (write_char c_colon) (andthen space (fv (snd kv))))", "new": "andthen (write_char c_colon) (andthen space (andthen (fv (snd kv)) (fmt_name (fst kv))))", "claim": "name before value (C98)", "targets": ["Props_FmtTalk"]}]