[{"id": "MI1", "file": "Parse", "definition": "parse_char", "old": "| [] => (Err (Some (e_at_one ECharEscape (offset t2))), t2)", "new": "| [] => (Err (Some (e_at_one ECharEscape (offset t1))), t2)", "claim": "a char that ends in the backslash is reported at the end (C104)", "targets": ["Props_Incomplete"]}, {"id": "MI2", "file": "Parse", "definition": "string_loop", "old": "(Err (Some (e_at_one (EStrClose start) (offset t))), t)", "new": "(Err (Some (e_at_one (EStrClose start) start)), t)", "claim": "an unclosed string is reported at the end (C104)", "targets": ["Props_Incomplete"]}, {"id": "MI3", "file": "Parse", "definition": "parse_number", "old": "(Err (Some (e_between ENumDigit end_loc (end_loc + 1))), t3)", "new": "(Err (Some (e_between ENumDigit start_loc (end_loc + 1))), t3)", "claim": "a lone sign is reported behind the sign (C104)", "targets": ["Props_Incomplete"]}, {"id": "MI4", "file": "Parse", "definition": "parse_bit_sequence", "old": "(Err (Some (e_between (EBitsClose start) (offset t3) (offset t3 + 1))), t3)", "new": "(Err (Some (e_between (EBitsClose start) start (offset t3 + 1))), t3)", "claim": "an unclosed bit sequence is reported at the end (C104)", "targets": ["Props_Incomplete"]}, {"id": "MI5", "file": "Parse", "definition": "parse_delimited", "old": "(Err (Some (e_at_one (ECloser cl start) (offset t6))), t6)", "new": "(Err (Some (e_at_one (ECloser cl start) start)), t6)", "claim": "an unclosed composite is reported at the end (C104)", "targets": ["Props_Incomplete"]}, {"id": "MI6", "file": "Parse", "definition": "string_loop", "old": "(Err (Some (e_between EStrEscape (offset t) (offset t + 1))), t')", "new": "(Err (Some (e_between EStrEscape (offset t') (offset t + 1))), t')", "claim": "a wrong escape code in a string is not reported at the end (C104)", "targets": ["Props_Incomplete"]}, {"id": "MI7", "file": "Parse", "definition": "parse_number", "old": "| None => (Err (Some (e_between ENumFailed start_loc end_loc)), t3)\n      end\n    else", "new": "| None => (Err (Some (e_between ENumFailed end_loc end_loc)), t3)\n      end\n    else", "claim": "a number out of range stays refused at the same place (C104)", "targets": ["Props_Incomplete"]}, {"id": "MI8", "file": "Parse", "definition": "parse_variant", "old": "| (None, t3) => (Err None, t3)\n          end\n      | (_, t1) => (Err None, t1)", "new": "| (None, t3) => (Err (Some (e_at EExpectedValue (offset t3))), t3)\n          end\n      | (_, t1) => (Err None, t1)", "claim": "a variant without values is reported at its start (C104)", "targets": ["Props_Incomplete"]}, {"id": "MI9", "file": "Parse", "definition": "parse_field_name_and_value", "old": "if negb ok then (Err (e_at_one (EMissingSep c_colon) (offset t2)), t2) else", "new": "if negb ok then (Err (e_at_one (EMissingSep c_colon) (offset t1)), t2) else", "claim": "a field without its colon is reported where the colon should be (C104)", "targets": ["Props_Incomplete"]}, {"id": "MI10", "file": "Parse", "definition": "parse_string", "old": "if negb ok then (Err None, t1) else string_loop start t1 [] false.", "new": "if negb ok then (Err None, t1) else match string_loop start t1 [] false with (Err (Some e), t2) => (Err None, t2) | x => x end.", "claim": "an unclosed string is reported at the end (C104)", "targets": ["Props_Incomplete"]}]