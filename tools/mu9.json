[{"id": "X47b", "file": "Serde", "definition": "ser_composite_with", "old": "| Unnamed l => SSeq (map f l)", "new": "| Unnamed l => STuple (map f l)", "claim": "unnamed is a sequence", "targets": ["Props_Texts"]}, {"id": "X54b", "file": "SerdeContent", "definition": "de_internally_tagged", "old": "| VSeq _ [] => Err DMissing", "new": "| VSeq _ [] => body tag (KSeq [])", "claim": "no tag is an error", "targets": ["Props_Texts"]}, {"id": "X56b", "file": "FmtParts", "definition": "display_primitive", "old": "(fmt_primitive string_wr p)", "new": "(fun f => match p with PString s => write_str string_wr s f | _ => fmt_primitive string_wr p f end)", "claim": "Display of a primitive string is quoted", "targets": ["Props_Layout"]}, {"id": "X57b", "file": "Messages", "definition": "kind_text", "old": "s2l \"Custom error: \" ++ m", "new": "m", "claim": "custom errors are marked", "targets": ["Props_Texts"]}, {"id": "X58b", "file": "Messages", "definition": "kind_text", "old": "s2l \"Missing field separator; expected \" ++ [c]", "new": "s2l \"Missing field separator\"", "claim": "the separator is named", "targets": ["Props_Texts"]}, {"id": "X59b", "file": "Messages", "definition": "closing_quote_text", "old": "show_N n.\nDefinition kind_text", "new": "show_N (n + 1).\nDefinition kind_text", "claim": "position of the quote", "targets": ["Props_Texts"]}, {"id": "PW1", "file": "ParseWork", "definition": "w_one_of", "old": "| (Err None, _) => after n (w_one_of alts' t)", "new": "| (Err None, _) => w_one_of alts' t", "claim": "alternatives that do not apply are paid for", "targets": ["Props_Work"]}, {"id": "PW2", "file": "ParseWork", "definition": "inner_call", "old": "Work (reads a) (S (deep a)).", "new": "Work (reads a) (deep a).", "claim": "nesting counts as recursion", "targets": ["Props_Work"]}, {"id": "PW3", "file": "ParseWork", "definition": "also", "old": "Work (reads a + reads b) (Nat.max (deep a) (deep b)).", "new": "Work (reads a + reads b) (deep a + deep b).", "claim": "recursion depth is a maximum, not a sum", "targets": ["Props_Work"]}, {"id": "PW4", "file": "ParseWork", "definition": "w_parse_variant", "old": "let (r3, n3) := w_one_of [w_parse_named_composite fuel; w_parse_unnamed_composite fuel] t2 in", "new": "let (r0, n0) := w_one_of [w_parse_named_composite fuel; w_parse_unnamed_composite fuel] t2 in\n          let (r3, n3) := after n0 (w_one_of [w_parse_named_composite fuel; w_parse_unnamed_composite fuel] t2) in", "claim": "values of a variant are parsed once (twice: exponential)", "targets": ["Props_Work"]}, {"id": "PW5", "file": "ParseWork", "definition": "w_sep_rest", "old": "((Ok (rev acc), t), n1) else", "new": "((Ok (rev acc), t1), n1) else", "claim": "the loop puts the location back", "targets": ["Props_Work"]}, {"id": "PW6", "file": "ParseWork", "definition": "w_parse_field_name_and_value", "old": "let (r3, n3) := pv t2 in", "new": "let (r0, n0) := pv t2 in let (r3, n3) := after n0 (pv t2) in", "claim": "a field's value is parsed once (twice: exponential)", "targets": ["Props_Work"]}, {"id": "PW7", "file": "ParseWork", "definition": "w_parse_value", "old": "let (r, n) := w_run_customs customs t in", "new": "let (r, n) := after (read (length t)) (w_run_customs customs t) in", "claim": "parsing a value does not read the whole rest ahead (quadratic)", "targets": ["Props_Work"]}, {"id": "PW8", "file": "ParseWork", "definition": "w_parse_string", "old": "else after n1 (w_string_loop start t1 [] false).", "new": "else after (also n1 (read (length t1))) (w_string_loop start t1 [] false).", "claim": "a string reads up to its quote only (quadratic)", "targets": ["Props_Work"]}, {"id": "PW9", "file": "ParseWork", "definition": "w_parse_delimited", "old": "if negb ok then ((Err None, t1), n1) else\n      let (t2, n2) := w_skip_whitespace t1 in\n      let '((ok, t3), n3) := w_token cl t2 in\n      if ok", "new": "if negb ok then ((Err None, t1), n1) else\n      let (t2, n2) := w_skip_whitespace t1 in\n      let '((ok, t3), n3) := w_token cl t2 in\n      if ok || (length t <? 2)%nat", "claim": "empty composites need a closer", "targets": ["Props_Work"]}, {"id": "PW10", "file": "ParseWork", "definition": "w_string_loop", "old": "after (read 1)\n      (match t with\n       | [] => ((Err (Some (e_at_one (EStrClose start)", "new": "after (read (length acc))\n      (match t with\n       | [] => ((Err (Some (e_at_one (EStrClose start)", "claim": "characters of a string are read once (quadratic)", "targets": ["Props_Work"]}, {"id": "DW1", "file": "DecodeWork", "definition": "within_call", "old": "DWork (1 + calls a) (1 + levels a).", "new": "DWork (calls a) (1 + levels a).", "claim": "each value is a call", "targets": ["Props_DecodeWork"]}, {"id": "DW2", "file": "DecodeWork", "definition": "within_call", "old": "DWork (1 + calls a) (1 + levels a).", "new": "DWork (1 + calls a) (levels a).", "claim": "nesting is recursion", "targets": ["Props_DecodeWork"]}, {"id": "DW3", "file": "DecodeWork", "definition": "then_", "old": "N.max (levels a) (levels b)", "new": "levels a + levels b", "claim": "depth is a maximum", "targets": ["Props_DecodeWork"]}, {"id": "DW4", "file": "DecodeWork", "definition": "wbind", "old": "| Err e => (Err e, snd m)", "new": "| Err e => (Err e, idle)", "claim": "work that ends in an error counts", "targets": ["Props_DecodeWork"]}, {"id": "DW5", "file": "DecodeWork", "definition": "k_items", "old": "| t :: ts' => wbind (dec t bs) (fun x => wbind (k_items dec ts' (snd x))", "new": "| t :: ts' => wbind (dec t bs) (fun x => wbind (k_items dec ts' bs)", "claim": "items follow each other", "targets": ["Props_DecodeWork"]}, {"id": "DW6", "file": "DecodeWork", "definition": "k_items", "old": "| t :: ts' => wbind (dec t bs) (fun x =>", "new": "| t :: ts' => wbind (wbind (dec t bs) (fun _ => dec t bs)) (fun x =>", "claim": "an item is decoded once (twice: exponential)", "targets": ["Props_DecodeWork"]}, {"id": "DW7", "file": "DecodeWork", "definition": "k_named", "old": "wbind (dec t bs) (fun x => wbind (k_named dec fs' (snd x)) (fun y =>", "new": "wbind (wbind (dec t bs) (fun _ => dec t bs)) (fun x => wbind (k_named dec fs' (snd x)) (fun y =>", "claim": "a named field is decoded once (twice: exponential)", "targets": ["Props_DecodeWork"]}, {"id": "DW8", "file": "DecodeWork", "definition": "kdecode", "old": "| ResTy (TCompact t') => kdecode f true t' bs", "new": "| ResTy (TCompact t') => wbind (kdecode f true t' bs) (fun _ => kdecode f true t' bs)", "claim": "compact contents are decoded once", "targets": ["Props_DecodeWork"]}, {"id": "DW9", "file": "DecodeWork", "definition": "kdecode", "old": "if compact && negb (length ts =? 1)%nat then alone (Err ECannotCompact)", "new": "if compact && negb (length ts <=? 1)%nat then alone (Err ECannotCompact)", "claim": "Compact<()> is an error", "targets": ["Props_DecodeWork"]}]