[
 {
  "id": "CU1",
  "file": "Cursor",
  "definition": "decode_composite_as_fields",
  "old": "| VDone (Err e) _ => Returns (Err e) input\n    | VDone (Ok c) it =>",
  "new": "| VDone (Err e) it => Returns (Err e) (it_bytes it)\n    | VDone (Ok c) it =>",
  "claim": "a failed decode_as_fields leaves the cursor",
  "targets": [
   "Props_Cursor"
  ]
 },
 {
  "id": "CU2",
  "file": "Cursor",
  "definition": "decode_composite_as_fields",
  "old": "| (Ok _, it') => Returns (Ok c) (it_bytes it')",
  "new": "| (Ok _, it') => Returns (Ok c) input",
  "claim": "a success moves the cursor",
  "targets": [
   "Props_Cursor"
  ]
 },
 {
  "id": "CU3",
  "file": "Cursor",
  "definition": "composite_decode_as_fields",
  "old": "| (Ok _, it') => Returns val (it_bytes it')",
  "new": "| (Ok _, it') => match val with Ok _ => Returns val (it_bytes it') | Err _ => Returns val input end",
  "claim": "the trait leaves the cursor at the failed field",
  "targets": [
   "Props_Cursor"
  ]
 },
 {
  "id": "CU4",
  "file": "Cursor",
  "definition": "visit_named",
  "old": "visit_named f (peek_name it') (vals ++ [(n, v)]) it'",
  "new": "visit_named f (peek_name it) (vals ++ [(n, v)]) it'",
  "claim": "each value gets its own field's name",
  "targets": [
   "Props_Cursor"
  ]
 },
 {
  "id": "CU5",
  "file": "Cursor",
  "definition": "visit",
  "old": "then visit_named fuel (peek_name it) [] it",
  "new": "then visit_named fuel None [] it",
  "claim": "the expect on a name never fires",
  "targets": [
   "Props_Cursor"
  ]
 },
 {
  "id": "CU6",
  "file": "Cursor",
  "definition": "visit",
  "old": "if (0 <? remaining it)%nat && negb (has_unnamed (it_fields it))",
  "new": "if (0 <? remaining it)%nat && negb (forallb (fun f => match fst f with None => true | _ => false end) (it_fields it))",
  "claim": "one unnamed field makes all unnamed; the expect never fires",
  "targets": [
   "Props_Cursor"
  ]
 },
 {
  "id": "CU7",
  "file": "Cursor",
  "definition": "visit",
  "old": "(0 <? remaining it)%nat && ",
  "new": "",
  "claim": "no fields decode to an unnamed composite",
  "targets": [
   "Props_Cursor"
  ]
 },
 {
  "id": "CU8",
  "file": "Cursor",
  "definition": "decode_item",
  "old": "| Ok (v, r) => (Some (Ok v), Items r fs)",
  "new": "| Ok (v, r) => (Some (Ok v), Items (it_bytes it) fs)",
  "claim": "each item is decoded where the one before ended",
  "targets": [
   "Props_Cursor"
  ]
 },
 {
  "id": "CU9",
  "file": "Cursor",
  "definition": "decode_item",
  "old": "if fuses then Items (it_bytes it) [] else it",
  "new": "if fuses then Items [] [] else it",
  "claim": "a failed item leaves the bytes",
  "targets": [
   "Props_Cursor"
  ]
 },
 {
  "id": "CU10",
  "file": "Cursor",
  "definition": "visit_unnamed",
  "old": "visit_unnamed f (vals ++ [v]) it'",
  "new": "visit_unnamed f (v :: vals) it'",
  "claim": "fields come in order",
  "targets": [
   "Props_Cursor"
  ]
 },
 {
  "id": "CU11",
  "file": "Cursor",
  "definition": "value_decode_as_fields",
  "old": "| Returns (Err e) cur => Returns (Err e) cur\n    | Returns (Ok c) cur => Returns (Ok (Val (DComposite c) ctx)) cur",
  "new": "| Returns (Err e) cur => Returns (Err e) input\n    | Returns (Ok c) cur => Returns (Ok (Val (DComposite c) ctx)) cur",
  "claim": "the cursor of Value is that of Composite",
  "targets": [
   "Props_Cursor"
  ]
 },
 {
  "id": "CU12",
  "file": "Cursor",
  "definition": "skip_decoding",
  "old": "| (Some (Err e), it') => (Err e, it')\n             | (Some (Ok _), it') => skip_decoding f it'",
  "new": "| (Some (Err e), it') => (Ok tt, it')\n             | (Some (Ok _), it') => skip_decoding f it'",
  "claim": "an error while skipping is reported",
  "targets": [
   "Props_Cursor"
  ]
 },
 {
  "id": "BP1",
  "file": "ByteParsers",
  "definition": "nibble_rs",
  "old": "rbind (u8_sub b 65)",
  "new": "rbind (u8_sub b 66)",
  "claim": "no subtraction overflows",
  "targets": [
   "Props_Bytes"
  ]
 },
 {
  "id": "BP2",
  "file": "ByteParsers",
  "definition": "nibble_rs",
  "old": "(97 <=? b) && (b <=? 102)",
  "new": "(97 <=? b) && (b <=? 122)",
  "claim": "only a to f are hex digits",
  "targets": [
   "Props_Bytes"
  ]
 },
 {
  "id": "BP3",
  "file": "ByteParsers",
  "definition": "nibble_rs",
  "old": "rbind (u8_sub b 48) (fun x => Ran (Some x))",
  "new": "Ran (Some b)",
  "claim": "a digit counts its value; no overflow",
  "targets": [
   "Props_Bytes"
  ]
 },
 {
  "id": "BP4",
  "file": "ByteParsers",
  "definition": "hex_loop_rs",
  "old": "rbind (u8_mul n 16)",
  "new": "rbind (u8_mul n 32)",
  "claim": "no multiplication overflows",
  "targets": [
   "Props_Bytes"
  ]
 },
 {
  "id": "BP5",
  "file": "ByteParsers",
  "definition": "hex_loop_rs",
  "old": "if negb (is_ascii_alnum b) then",
  "new": "if negb (is_ascii_alnum b) && (b <? 128) then",
  "claim": "the loop stops at non-ASCII bytes",
  "targets": [
   "Props_Bytes"
  ]
 },
 {
  "id": "BP6",
  "file": "ByteParsers",
  "definition": "parse_hex_rs",
  "old": "(S (length s)) s 2 None []",
  "new": "(S (length s)) s 3 None []",
  "claim": "reading starts after 0x",
  "targets": [
   "Props_Bytes"
  ]
 },
 {
  "id": "BP7",
  "file": "ByteParsers",
  "definition": "parse_hex_rs",
  "old": "rbind (slice_from idx s)",
  "new": "rbind (slice_from (idx + 1) s)",
  "claim": "the unsafe block gets valid UTF-8 and the index is in range",
  "targets": [
   "Props_Bytes"
  ]
 },
 {
  "id": "BP9",
  "file": "ByteParsers",
  "definition": "hex_loop_rs",
  "old": "hex_loop_rs f bytes (idx + 1) None (values",
  "new": "hex_loop_rs f bytes (idx + 1) (Some n) (values",
  "claim": "a byte is two digits",
  "targets": [
   "Props_Bytes"
  ]
 },
 {
  "id": "BP10",
  "file": "ByteParsers",
  "definition": "hex_loop_rs",
  "old": "(e_at (ECustom (invalid_char_msg b)) (N.of_nat idx))",
  "new": "(e_at (ECustom (invalid_char_msg b)) (N.of_nat (idx - 2)))",
  "claim": "the position of the bad digit",
  "targets": [
   "Props_Bytes"
  ]
 },
 {
  "id": "BP11",
  "file": "ByteParsers",
  "definition": "parse_ss58_rs",
  "old": "(str_slice end_idx (length s) s)",
  "new": "(str_slice (end_idx + 1) (length s) s)",
  "claim": "slices are on character boundaries",
  "targets": [
   "Props_Bytes"
  ]
 },
 {
  "id": "BP12",
  "file": "ByteParsers",
  "definition": "parse_ss58_rs",
  "old": "if (length bytes <? prefix_len + 2)%nat then",
  "new": "if (length bytes <? 2)%nat then",
  "claim": "the last slice is in range",
  "targets": [
   "Props_Bytes"
  ]
 },
 {
  "id": "BP13",
  "file": "ByteParsers",
  "definition": "parse_ss58_rs",
  "old": "if (length bytes <? prefix_len + 2)%nat then",
  "new": "if (length bytes <? prefix_len)%nat then",
  "claim": "no subtraction below zero",
  "targets": [
   "Props_Bytes"
  ]
 },
 {
  "id": "BP14",
  "file": "ByteParsers",
  "definition": "parse_ss58_rs",
  "old": "if match maybe_ss58 with [] => true | _ => false end then Ran (None, s)\n      else ",
  "new": "",
  "claim": "the empty address is no address",
  "targets": [
   "Props_Bytes"
  ]
 },
 {
  "id": "BP15",
  "file": "ByteParsers",
  "definition": "parse_ss58_rs",
  "old": "fun out => Ran (Some out, rest)",
  "new": "fun out => Ran (Some out, s)",
  "claim": "the cursor moves over the address",
  "targets": [
   "Props_Bytes"
  ]
 },
 {
  "id": "BP16",
  "file": "ByteParsers",
  "definition": "parse_ss58_rs",
  "old": "slice prefix_len checksum_start_idx bytes",
  "new": "slice prefix_len (length bytes) bytes",
  "claim": "the checksum is not part of the account",
  "targets": [
   "Props_Bytes"
  ]
 },
 {
  "id": "BP17",
  "file": "ByteParsers",
  "definition": "find_from",
  "old": "(idx + length (utf8_char c))",
  "new": "(idx + 1)",
  "claim": "find gives byte indices",
  "targets": [
   "Props_Bytes"
  ]
 },
 {
  "id": "BP18",
  "file": "ByteParsers",
  "definition": "hex_digits_rs",
  "old": "rbind (u4_to_hex_rs (N.shiftr n 4))",
  "new": "rbind (u4_to_hex_rs (N.shiftr n 3))",
  "claim": "the expect of u4_to_hex never fires",
  "targets": [
   "Props_Bytes"
  ]
 },
 {
  "id": "BP19",
  "file": "ByteParsers",
  "definition": "hex_digits_rs",
  "old": "(N.land n 15)",
  "new": "(N.land n 31)",
  "claim": "the expect of u4_to_hex never fires",
  "targets": [
   "Props_Bytes"
  ]
 },
 {
  "id": "BP20",
  "file": "ByteParsers",
  "definition": "format_hex_rs",
  "old": "if negb ok then Ran (Some false, w1) else",
  "new": "",
  "claim": "a failing writer stops it",
  "targets": [
   "Props_Bytes"
  ]
 },
 {
  "id": "BP21",
  "file": "ByteParsers",
  "definition": "parse_ss58_rs",
  "old": "else if match skip_while is_whitespace (chars rest) with c :: _ => (c =? c_lpar) || (c =? c_lbrace) | [] => false end then Ran (None, s)\n",
  "new": "else if match chars rest with c :: _ => (c =? c_lpar) || (c =? c_lbrace) | [] => false end then Ran (None, s)\n",
  "claim": "white space before a bracket is skipped",
  "targets": [
   "Props_Bytes"
  ]
 }
]