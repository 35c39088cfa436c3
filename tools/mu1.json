[{"id": "V1", "file": "Value", "definition": "composite_map", "old": "Named (map (fun kv => (fst kv, g (snd kv))) l)", "new": "Named (rev (map (fun kv => (fst kv, g (snd kv))) l))", "claim": "map_context keeps field order (C01)", "targets": ["Props_Value"]}, {"id": "V2", "file": "Value", "definition": "map_context", "old": "map_context f (snd us) c", "new": "map_context f s c", "claim": "children get a clone of the closure as it is after the call for the parent (C01)", "targets": ["Props_Value"]}, {"id": "V3", "file": "Value", "definition": "vdef_map", "old": "DVariant n c => DVariant n (composite_map g c)", "new": "DVariant n c => DVariant [] (composite_map g c)", "claim": "map_context keeps variant names (C01)", "targets": ["Props_Value"]}, {"id": "V4", "file": "Value", "definition": "find_field", "old": "if str_eqb s n then Some v else find_field s l'", "new": "match find_field s l' with Some w => Some w | None => if str_eqb s n then Some v else None end", "claim": "at(name) gives the first field of that name (C02)", "targets": ["Props_Value"]}, {"id": "V5", "file": "Value", "definition": "at_composite", "old": "      | Named l => option_map snd (nth_error l n)", "new": "      | Named l => None", "claim": "named fields can be reached by position (C02)", "targets": ["Props_Value"]}, {"id": "V6", "file": "Value", "definition": "at_value", "old": "  | DVariant _ c => at_composite c loc", "new": "  | DVariant _ c => None", "claim": "at looks into variants (C02)", "targets": ["Props_Value"]}, {"id": "V7", "file": "Value", "definition": "as_u128", "old": "DPrim (PU128 n) => Some n | _ => None", "new": "DPrim (PU128 n) => Some n | DPrim (PI128 z) => Some (Z.to_N z) | _ => None", "claim": "as_u128 answers only for U128 (C03)", "targets": ["Props_Value"]}, {"id": "V8", "file": "Value", "definition": "as_i128_cast", "old": "((n + 2 ^ 127) mod 2 ^ 128 - 2 ^ 127)%Z", "new": "((n + 2 ^ 63) mod 2 ^ 64 - 2 ^ 63)%Z", "claim": "signed integers convert exactly (C03)", "targets": ["Props_Value"]}, {"id": "V9", "file": "Value", "definition": "from_bytes", "old": "unnamed_composite (map vu128 b)", "new": "unnamed_composite (map vu128 (rev b))", "claim": "from_bytes keeps order (C03)", "targets": ["Props_Value"]}, {"id": "V10", "file": "Value", "definition": "cis_empty", "old": "  | Named l => match l with [] => true | _ => false end", "new": "  | Named l => false", "claim": "is_empty iff len is 0 (C03)", "targets": ["Props_Value"]}, {"id": "P1", "file": "Parse", "definition": "parse_number", "old": "in (negb minus, t1')", "new": "in (minus, t1')", "claim": "a minus sign makes a number negative (C09)", "targets": ["Props_Parse", "Props_Fmt", "Props_Custom"]}, {"id": "P2", "file": "Parse", "definition": "parse_u128", "old": "n <? 2 ^ 128", "new": "n <=? 2 ^ 128", "claim": "2^128 is an overflow error (C09)", "targets": ["Props_Parse", "Props_Fmt", "Props_Custom"]}, {"id": "P3", "file": "Parse", "definition": "parse_neg_i128", "old": "n <=? 2 ^ 127", "new": "n <? 2 ^ 127", "claim": "-2^127 parses (C09)", "targets": ["Props_Parse", "Props_Fmt", "Props_Custom"]}, {"id": "P4", "file": "Chars", "definition": "from_escape_code", "old": "  else if c =? 48 then Some 0\n  else None", "new": "  else None", "claim": "\\0 is an escape (C10, C04)", "targets": ["Props_Parse", "Props_Fmt", "Props_Custom"]}, {"id": "P5", "file": "Chars", "definition": "to_escape_code", "old": "  else if c =? 92 then Some 92\n  else if c =? 0 then", "new": "  else if c =? 0 then", "claim": "a backslash is escaped (C10, C04)", "targets": ["Props_Parse", "Props_Fmt", "Props_Custom"]}, {"id": "P6", "file": "Parse", "definition": "string_loop", "old": "e_between EStrEscape (offset t) (offset t + 1)", "new": "e_between EStrEscape (offset t + 2) (offset t + 3)", "claim": "error locations are in the input (C07)", "targets": ["Props_Parse"]}, {"id": "P7", "file": "Parse", "definition": "string_loop", "old": "string_loop start t' (c' :: acc) false", "new": "string_loop start t' (c' :: acc) true", "claim": "an escape ends after one char (C10)", "targets": ["Props_Parse", "Props_Fmt", "Props_Custom"]}, {"id": "P8", "file": "Parse", "definition": "parse_ident", "old": "take_while (fun c => is_alphanumeric U c || (c =? c_under)) t1", "new": "take_while (fun c => is_alphanumeric U c) t1", "claim": "identifiers may contain underscores (C11, C04)", "targets": ["Props_Parse", "Props_Fmt", "Props_Custom"]}, {"id": "P9", "file": "Parse", "definition": "parse_i_string", "old": "if negb (c =? c_v) then (Err None, t') else ok_of_o parse_string t'", "new": "(Err None, t')", "claim": "v\"...\" names a variant (C11, C04)", "targets": ["Props_Parse", "Props_Fmt", "Props_Custom"]}, {"id": "P10", "file": "Parse", "definition": "sep_rest", "old": "          | (Err e, _) => (Err e, t)\n          | (Ok a, t2) => sep_rest k item t2 (a :: acc)", "new": "          | (Err e, _) => (Ok (rev acc), t1)\n          | (Ok a, t2) => sep_rest k item t2 (a :: acc)", "claim": "no trailing commas (C11)", "targets": ["Props_Parse", "Props_Fmt", "Props_Custom"]}, {"id": "P11", "file": "Parse", "definition": "parse_delimited", "old": "let t5 := skip_whitespace t4 in", "new": "let t5 := t4 in", "claim": "white space may precede a closing bracket (C11, C04)", "targets": ["Props_Parse", "Props_Fmt", "Props_Custom"]}, {"id": "P12", "file": "Parse", "definition": "parse_builtin", "old": "one_of [ omap vbool parse_bool;\n", "new": "one_of [ parse_variant fuel; omap vbool parse_bool;\n", "claim": "true and false are booleans before they are variant names (C11, C05)", "targets": ["Props_Parse", "Props_Fmt", "Props_Custom"]}, {"id": "P13", "file": "Parse", "definition": "wind_forward", "old": "skipn (N.to_nat (blen s - blen cursor)) s", "new": "skipn (length s - length cursor)%nat s", "claim": "one next() per byte (C17_general_cursor; the repaired program contradicts C17_cursor_refuted)", "targets": ["Props_Custom"]}, {"id": "P14", "file": "Parse", "definition": "take_digits", "old": "else if seen_n && (c =? c_under) then", "new": "else if (c =? c_under) then", "claim": "a number does not start with an underscore (C11, C09)", "targets": ["Props_Parse", "Props_Fmt", "Props_Custom"]}, {"id": "P15", "file": "Parse", "definition": "parse_bit_sequence", "old": "map (fun c => c =? c_1) bits", "new": "map (fun c => c =? c_0) bits", "claim": "bits are read as written (C11, C04)", "targets": ["Props_Parse", "Props_Fmt", "Props_Custom"]}, {"id": "P16", "file": "Parse", "definition": "parse_char", "old": "if negb ok then (Err (Some (e_at_one (ECharClose start) (offset t4))), t4) else (Ok c, t4)", "new": "(Ok c, t4)", "claim": "a char needs its closing quote (C11)", "targets": ["Props_Parse", "Props_Fmt", "Props_Custom"]}, {"id": "P17", "file": "Parse", "definition": "parse_number", "old": "      if plus then (true, t1)", "new": "      if plus then (false, t1)", "claim": "+5 is positive (C09)", "targets": ["Props_Parse", "Props_Fmt", "Props_Custom"]}, {"id": "P18", "file": "Parse", "definition": "skip_spaced_separator", "old": "(is_sep, skip_whitespace t2)", "new": "(is_sep, t2)", "claim": "white space may follow a separator (C11, C04)", "targets": ["Props_Parse", "Props_Fmt", "Props_Custom"]}, {"id": "P19", "file": "Parse", "definition": "shift_err", "old": "PErr (start_offset + start_loc e)", "new": "PErr (start_loc e)", "claim": "errors of custom parsers are located in the whole input (C15)", "targets": ["Props_Parse", "Props_Fmt", "Props_Custom"]}, {"id": "P19b", "file": "Parse", "definition": "shift_err", "old": "option_map (fun l => start_offset + l) (end_loc e)", "new": "end_loc e", "claim": "errors of custom parsers are located in the whole input (C15)", "targets": ["Props_Parse", "Props_Fmt", "Props_Custom"]}, {"id": "P20", "file": "Parse", "definition": "run_customs", "old": "| (None, cur) => run_customs cs' cur", "new": "| (None, cur) => run_customs cs' cursor", "claim": "a declining custom parser that moved the cursor is seen by the next one (C17)", "targets": ["Props_Custom"]}, {"id": "P21", "file": "Parse", "definition": "parse_value", "old": "| Some (Ok v, cursor) => (Ok v, wind_forward t cursor)", "new": "| Some (Ok v, cursor) => (Ok v, t)", "claim": "the cursor advances past what a custom parser read (C17, C15)", "targets": ["Props_Custom"]}, {"id": "P22", "file": "Parse", "definition": "parse_field_name_and_value", "old": "if negb ok then (Err (e_at_one (EMissingSep c_colon) (offset t2)), t2) else\n", "new": "", "claim": "a field needs its colon (C11)", "targets": ["Props_Parse", "Props_Fmt", "Props_Custom"]}, {"id": "P23", "file": "Parse", "definition": "parse_delimited", "old": "if ok then (Ok [], t3) else", "new": "if ok then (Ok [], t1) else", "claim": "the closing bracket of an empty composite is consumed (C06, C11)", "targets": ["Props_Parse", "Props_Fmt", "Props_Custom"]}, {"id": "P24", "file": "Parse", "definition": "parse_number", "old": "if end_loc =? start_loc then (Err None, t3)", "new": "if end_loc =? start_loc then (Ok (PU128 0), t3)", "claim": "no number without digits (C09, C11)", "targets": ["Props_Parse", "Props_Fmt", "Props_Custom"]}, {"id": "P25", "file": "Parse", "definition": "is_alphabetic use in parse_ident", "old": "take_while (is_alphabetic U) t in", "new": "take_while (is_alphanumeric U) t in", "claim": "identifiers do not start with a digit (C11)", "targets": ["Props_Parse", "Props_Fmt", "Props_Custom"]}, {"id": "F1", "file": "Fmt", "definition": "digits_fuel", "old": "if n <? 10 then acc'", "new": "if n <=? 10 then acc'", "claim": "10 displays as 10 (C20)", "targets": ["Props_Fmt", "Props_Custom"]}, {"id": "F2", "file": "Fmt", "definition": "is_ident", "old": "is_alphabetic U c && forallb", "new": "(is_alphabetic U c || (c =? c_under)) && forallb", "claim": "names that do not parse as identifiers are quoted (C04)", "targets": ["Props_Fmt", "Props_Custom"]}, {"id": "F3", "file": "Fmt", "definition": "fmt_char", "old": "andthen (write_char c_squote) (andthen (fmt_escaped c)", "new": "andthen (write_char c_squote) (andthen (write_char c)", "claim": "chars are escaped (C10, C04)", "targets": ["Props_Fmt", "Props_Custom"]}, {"id": "F4", "file": "Fmt", "definition": "fmt_variant", "old": "else andthen (write_char c_v) (fmt_string name)", "new": "else fmt_string name", "claim": "quoted variant names have a v in front (C04)", "targets": ["Props_Fmt", "Props_Custom"]}, {"id": "F6", "file": "Fmt", "definition": "fmt_items", "old": "andthen (write_str (s2l \",\"))", "new": "andthen (write_str (s2l \";\"))", "claim": "items are separated by commas (C04)", "targets": ["Props_Fmt", "Props_Custom"]}, {"id": "F8", "file": "Fmt", "definition": "andthen", "old": "if ok then b f' else (f', false)", "new": "b f'", "claim": "a failing writer is reported (C12)", "targets": ["Props_Fmt", "Props_Custom"]}, {"id": "F9", "file": "Fmt", "definition": "fmt_int", "old": "if (z <? 0)%Z then andthen (write_char c_minus) (write_str", "new": "if (z <? 0)%Z then andthen ret (write_str", "claim": "negative numbers have a sign (C20)", "targets": ["Props_Fmt", "Props_Custom"]}, {"id": "F10", "file": "Fmt", "definition": "fmt_primitive", "old": "| PU256 _ | PI256 _ => fun f => (f, false)", "new": "| PU256 _ | PI256 _ => ret", "claim": "256-bit numbers are an error (C19)", "targets": ["Props_Fmt", "Props_Custom"]}, {"id": "F11", "file": "Fmt", "definition": "run_formatters", "old": "        | (Some ok, w) => (Some ok, FS w (fstyle f))\n", "new": "        | (Some ok, w) => match run_formatters fs' v (FS w (fstyle f)) with (None, f') => (Some ok, f') | r => r end\n", "claim": "the first answer decides (C13)", "targets": ["Props_Fmt", "Props_Custom"]}, {"id": "F12", "file": "Fmt", "definition": "write_newline", "old": "(write_str (leading_indent cfg))", "new": "ret", "claim": "leading indent is written after every newline", "targets": ["Props_Fmt", "Props_Custom"]}, {"id": "F13", "file": "Fmt", "definition": "fmt_context", "old": "(write_str (s2l \"> \"))", "new": "(write_str (s2l \">\"))", "claim": "contexts are printed as <ctx> followed by a space", "targets": ["Props_Fmt", "Props_Custom"]}, {"id": "F14", "file": "Fmt", "definition": "is_byte_value", "old": "n <? 256", "new": "n <=? 256", "claim": "only lists of bytes are written as hex (C14)", "targets": ["Props_Custom"]}, {"id": "F15", "file": "Fmt", "definition": "u4_to_hex", "old": "0123456789ABCDEF", "new": "0123456789abcdef", "claim": "hex digits are upper case (C14)", "targets": ["Props_Custom"]}, {"id": "F16", "file": "Fmt", "definition": "format_hex", "old": "        | [] => (None, w)\n", "new": "        | [] => (Some true, w)\n", "claim": "empty composites are not hex (C14)", "targets": ["Props_Custom"]}, {"id": "F17", "file": "Fmt", "definition": "hex_loop", "old": "let (w1, ok) := wr w [hi] in\n            if ok then let (w2, ok) := wr w1 [lo] in", "new": "let (w1, ok) := wr w [lo] in\n            if ok then let (w2, ok) := wr w1 [hi] in", "claim": "high digit first (C14)", "targets": ["Props_Custom"]}, {"id": "F18", "file": "Fmt", "definition": "display", "old": "(if alternate then Pretty 0 else Normal)", "new": "(if alternate then Normal else Pretty 0)", "claim": "{:#} is the indented form", "targets": ["Props_Fmt", "Props_Custom"]}, {"id": "F19", "file": "Fmt", "definition": "indent_step", "old": "Pretty n => Pretty (S n) end), true)", "new": "Pretty n => Pretty n end), true)", "claim": "nested items are indented one step more", "targets": ["Props_Fmt", "Props_Custom"]}, {"id": "F20", "file": "Fmt", "definition": "fmt_name", "old": "if is_ident U n then write_str n else fmt_string n", "new": "write_str n", "claim": "field names that are not identifiers are quoted (C04)", "targets": ["Props_Fmt", "Props_Custom"]}, {"id": "F21", "file": "Fmt", "definition": "space", "old": "match fstyle f with Compact => ret f | Normal | Pretty _ => write_char c_space f end", "new": "write_char c_space f", "claim": "the compact form has no spaces (C18)", "targets": ["Props_Fmt", "Props_Custom"]}, {"id": "F22", "file": "Fmt", "definition": "fmt_value", "old": "andthen (fmt_context c)\n          (fun f =>", "new": "andthen ret\n          (fun f =>", "claim": "contexts are printed when asked for", "targets": ["Props_Fmt", "Props_Custom"]}, {"id": "H1", "file": "Hex", "definition": "hex_nibble", "old": "(b <=? 102)", "new": "(b <=? 103)", "claim": "g is not a hex digit (C15)", "targets": ["Props_Custom"]}, {"id": "H2", "file": "Hex", "definition": "hex_scan", "old": "vu128 (m * 16 + n)", "new": "vu128 (n * 16 + m)", "claim": "first digit is the high one (C14, C15)", "targets": ["Props_Custom"]}, {"id": "H3", "file": "Hex", "definition": "hex_scan", "old": "    | Some _ => Err (e_between (ECustom wrong_length_msg) 0 idx)", "new": "    | Some _ => Ok (rev acc, t)", "claim": "odd numbers of digits are an error (C15)", "targets": ["Props_Custom"]}, {"id": "H4", "file": "Hex", "definition": "parse_hex", "old": "hex_scan t 2 None []", "new": "hex_scan t 0 None []", "claim": "error locations count the 0x (C15)", "targets": ["Props_Custom"]}, {"id": "H5", "file": "Ss58", "definition": "parse_ss58_bytes", "old": "b <=? 63", "new": "b <=? 64", "claim": "prefixes from 64 have two bytes (C16)", "targets": ["Props_Custom"]}, {"id": "H6", "file": "Ss58", "definition": "parse_ss58_bytes", "old": "if negb (str_eqb (skipn checksum_start_idx bs) checksum) then None\n              else", "new": "", "claim": "the checksum is verified (C16)", "targets": ["Props_Custom"]}, {"id": "H7", "file": "Ss58", "definition": "parse_ss58_bytes", "old": "(length bs <? pl + 2)%nat", "new": "(length bs <? pl + 1)%nat", "claim": "short data is refused (C16)", "targets": ["Props_Custom"]}, {"id": "H8", "file": "Ss58", "definition": "parse_ss58_bytes", "old": "str_is maybe_ss58 \"true\" || str_is maybe_ss58 \"false\" || ", "new": "", "claim": "true and false are not addresses (C16)", "targets": ["Props_Custom"]}, {"id": "H9", "file": "Ss58", "definition": "parse_ss58", "old": "| Some (bs, rest) => (Some (Ok (from_bytes bs)), rest)", "new": "| Some (bs, rest) => (Some (Ok (from_bytes bs)), s)", "claim": "the address is consumed (C16)", "targets": ["Props_Custom"]}, {"id": "H10", "file": "Ss58", "definition": "parse_ss58_bytes", "old": "(c =? c_lpar) || (c =? c_lbrace)", "new": "(c =? c_lpar)", "claim": "variant names are not addresses (C16)", "targets": ["Props_Custom"]}, {"id": "H11", "file": "Ss58", "definition": "parse_ss58_bytes", "old": "(firstn checksum_start_idx bs)) in", "new": "(skipn pl (firstn checksum_start_idx bs))) in", "claim": "the checksum covers the prefix (C16)", "targets": ["Props_Custom"]}]