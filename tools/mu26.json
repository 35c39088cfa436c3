[{"id": "MY1", "file": "Fmt", "definition": "fmt_bitsequence", "old": "(andthen (seqs (map (fun x : bool => write_char (if x then c_1 else c_0)) b)) (write_char c_gt)).", "new": "(andthen (seqs (map (fun x : bool => write_char (if x then c_1 else c_0)) (removelast b))) (write_char c_gt)).", "claim": "equal texts mean equal values (C108): the last bit is not written", "targets": ["Props_Ident"]}, {"id": "MY2", "file": "Fmt", "definition": "fmt_int", "old": "if (z <? 0)%Z then andthen (write_char c_minus) (write_str (show_N (Z.abs_N z)))", "new": "if (z <? -1)%Z then andthen (write_char c_minus) (write_str (show_N (Z.abs_N z)))", "claim": "equal texts mean equal values (C108): -1 and 1 print alike", "targets": ["Props_Ident"]}, {"id": "MY3", "file": "Fmt", "definition": "fmt_composite", "old": "    | Named [] => write_str (s2l \"{}\")", "new": "    | Named [] => write_str (s2l \"()\")", "claim": "equal texts mean equal values (C108): the two empty composites print alike", "targets": ["Props_Ident"]}, {"id": "MY4", "file": "Chars", "definition": "to_escape_code", "old": "  else if c =? 9 then Some 116 (* t *)", "new": "  else if c =? 9 then Some 110 (* t *)", "claim": "equal texts mean equal values (C108): tabs are written as newlines", "targets": ["Props_Ident"]}, {"id": "MY5", "file": "Decode", "definition": "decode", "old": "match find (fun v => vi_index v =? idx) vs with", "new": "match find (fun v => vi_index v mod 128 =? idx mod 128) vs with", "claim": "decoded values with equal texts were read from the same bytes (C108): the top bit of the index is ignored", "targets": ["Props_Ident"]}, {"id": "MY6", "file": "Scale", "definition": "read_prim", "old": "if b =? 0 then Ok (PBool false, r) else if b =? 1 then Ok (PBool true, r) else Err ECodec", "new": "if b =? 0 then Ok (PBool false, r) else Ok (PBool true, r)", "claim": "decoded values with equal texts were read from the same bytes (C108): any nonzero byte is true", "targets": ["Props_Ident"]}, {"id": "MY7", "file": "Scale", "definition": "compact_decode", "old": "      let chk lo n rest := if (lo <=? n) && (n <? 2 ^ w) then", "new": "      let chk lo n rest := if (n <? 2 ^ w) then", "claim": "decoded values with equal texts were read from equally many bytes (C108): long forms of small numbers are accepted", "targets": ["Props_Ident"]}, {"id": "MY8", "file": "Encode", "definition": "encode_primitive", "old": "    | PI128 z => encode_number z", "new": "    | PI128 z => if (z =? 0)%Z then encode_bool false else encode_number z", "claim": "values with equal texts encode alike (C108): the signed zero encodes as a bool, the unsigned one does not", "targets": ["Props_Ident"]}, {"id": "MY9", "file": "Fmt", "definition": "fmt_composite", "old": "    | Unnamed l =>\n        andthen (write_char c_lpar) (andthen indent_step", "new": "    | Unnamed [v1] => fv v1\n    | Unnamed l =>\n        andthen (write_char c_lpar) (andthen indent_step", "claim": "equal texts mean equal values (C108): a sequence of one element prints like the element", "targets": ["Props_Ident"]}, {"id": "MY10", "file": "Fmt", "definition": "fmt_char", "old": "andthen (write_char c_squote) (andthen (fmt_escaped c) (write_char c_squote)).", "new": "andthen (write_char c_dquote) (andthen (fmt_escaped c) (write_char c_dquote)).", "claim": "equal texts mean equal values (C108): a char prints like the string of it", "targets": ["Props_Ident"]}]