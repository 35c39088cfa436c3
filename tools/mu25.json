[{"id": "MX1", "file": "Fmt", "definition": "fmt_char", "old": "(andthen (fmt_escaped c) (write_char c_squote)).", "new": "(andthen (if c =? 39 then write_char c else fmt_escaped c) (write_char c_squote)).", "claim": "the displayed text of a part that is a char stands in its place and reads back (C107)", "targets": ["Props_EditText"]}, {"id": "MX2", "file": "Fmt", "definition": "fmt_int", "old": "else write_str (show_N (Z.abs_N z)).", "new": "else write_str (show_N (Z.abs_N (z mod 2 ^ 64)%Z)).", "claim": "what stays of the text keeps its bytes (C107): large positive signed numbers lose digits", "targets": ["Props_EditText"]}, {"id": "MX3", "file": "Fmt", "definition": "is_ident", "old": "forallb (fun c => is_alphanumeric U c || (c =? c_under)) s'", "new": "forallb (fun c => is_alphanumeric U c || (c =? c_under) || (c =? 45)) s'", "claim": "a displayed name is read back (C107): names with a hyphen are printed bare", "targets": ["Props_EditText"]}, {"id": "MX4", "file": "Encode", "definition": "encode_primitive", "old": "    | PU128 n => encode_number (Z.of_N n)", "new": "    | PU128 n => if n <? 2 ^ 64 then encode_number (Z.of_N n) else encode_number (Z.of_N n mod 2 ^ 64)%Z", "claim": "what is read from the text encodes to the bytes of what was printed (C107): large numbers read back unsigned lose their high half", "targets": ["Props_EditText"]}, {"id": "MX5", "file": "Encode", "definition": "encode_variant", "old": "encode_fields (source_fields (composite_map snd c)) (vi_fields v) (out ++ [vi_index v])", "new": "encode_fields (source_fields (composite_map snd c)) (vi_fields v) (out ++ [N.of_nat (length (vi_fields v))])", "claim": "the bytes around the edited part stay (C107): another index byte", "targets": ["Props_EditText"]}, {"id": "MX6", "file": "Parse", "definition": "parse_value", "old": "                     omap vchar parse_char;", "new": "                     omap (fun c => vchar (if c =? 0 then 48 else c)) parse_char;", "claim": "what is put into the text is what is encoded, and what stays stays (C107): the null char reads as a digit", "targets": ["Props_EditText"]}, {"id": "MX7", "file": "Encode", "definition": "encode_by_name", "old": "                  | Some e => andthen (e (snd fd) out) (fun out' => encode_by_name src fs' out')", "new": "                  | Some e => andthen (e (snd fd) []) (fun out' => encode_by_name src fs' out')", "claim": "the bytes around the edited part stay (C107): fields before it are dropped", "targets": ["Props_EditText"]}]