[
 {
  "id": "P20b",
  "file": "Parse",
  "definition": "run_customs",
  "old": "| (None, cur) => run_customs cs' cur",
  "new": "| (None, cur) => run_customs cs' cursor",
  "claim": "a declining custom parser that moved the cursor is seen by the next one (C17, C62)",
  "targets": [
   "Props_Messages"
  ]
 },
 {
  "id": "F13b",
  "file": "Fmt",
  "definition": "fmt_context",
  "old": "(write_str (s2l \"> \"))",
  "new": "(write_str (s2l \">\"))",
  "claim": "contexts are printed as <ctx> followed by a space (C59)",
  "targets": [
   "Props_Layout"
  ]
 },
 {
  "id": "F22b",
  "file": "Fmt",
  "definition": "fmt_value",
  "old": "andthen (fmt_context c)\n          (fun f =>",
  "new": "andthen ret\n          (fun f =>",
  "claim": "contexts are printed when asked for (C59)",
  "targets": [
   "Props_Layout"
  ]
 },
 {
  "id": "F12b",
  "file": "Fmt",
  "definition": "write_newline",
  "old": "(write_str (leading_indent cfg))",
  "new": "ret",
  "claim": "leading indent is written after every newline (C59)",
  "targets": [
   "Props_Layout"
  ]
 },
 {
  "id": "F19b",
  "file": "Fmt",
  "definition": "indent_step",
  "old": "Pretty n => Pretty (S n) end), true)",
  "new": "Pretty n => Pretty n end), true)",
  "claim": "nested items are indented one step more (C59)",
  "targets": [
   "Props_Layout"
  ]
 },
 {
  "id": "F20b",
  "file": "Fmt",
  "definition": "fmt_name",
  "old": "if is_ident U n then write_str n else fmt_string n",
  "new": "if is_ident U n then write_str n else write_str n",
  "claim": "field names that are not identifiers are quoted (C04, C59)",
  "targets": [
   "Props_Fmt",
   "Props_Layout"
  ]
 },
 {
  "id": "F23",
  "file": "Fmt",
  "definition": "unindent_step",
  "old": "Pretty n => Pretty (Nat.pred n) end), true)",
  "new": "Pretty n => Pretty n end), true)",
  "claim": "the closing bracket is one step less indented (C59)",
  "targets": [
   "Props_Layout"
  ]
 },
 {
  "id": "F24",
  "file": "Fmt",
  "definition": "fmt_composite",
  "old": "(andthen unindent_step (andthen newline (write_char c_rpar))))))",
  "new": "(andthen newline (andthen unindent_step (write_char c_rpar))))))",
  "claim": "the closing parenthesis is aligned with the opening line (C59)",
  "targets": [
   "Props_Layout"
  ]
 },
 {
  "id": "F25",
  "file": "Fmt",
  "definition": "item_separator",
  "old": "Normal => write_char c_space f | Pretty n => write_newline n f end",
  "new": "Normal => ret f | Pretty n => write_newline n f end",
  "claim": "a space follows a comma in the normal style (C59)",
  "targets": [
   "Props_Layout"
  ]
 },
 {
  "id": "F26",
  "file": "Fmt",
  "definition": "fmt_variant",
  "old": "(andthen space (fmt_composite fv c))",
  "new": "(fmt_composite fv c)",
  "claim": "a space separates a variant name from its fields (C59)",
  "targets": [
   "Props_Layout"
  ]
 },
 {
  "id": "F27",
  "file": "Fmt",
  "definition": "run_formatters",
  "old": "| (None, w) => run_formatters fs' v (FS w (fstyle f))",
  "new": "| (None, w) => (None, FS w (fstyle f))",
  "claim": "all formatters are asked until one answers (C13, C59)",
  "targets": [
   "Props_Fmt",
   "Props_Layout"
  ]
 },
 {
  "id": "G1",
  "file": "Messages",
  "definition": "perr_display",
  "old": "s2l \"Error from char \" ++ show_N (start_loc e) ++ s2l \" to \" ++ show_N l",
  "new": "s2l \"Error from char \" ++ show_N l ++ s2l \" to \" ++ show_N (start_loc e)",
  "claim": "the text shows start before end (C61)",
  "targets": [
   "Props_Messages"
  ]
 },
 {
  "id": "G2",
  "file": "Messages",
  "definition": "seg_display",
  "old": "s2l \"[\" ++ show_N (N.of_nat n)",
  "new": "s2l \"[\" ++ show_N (N.of_nat (S n))",
  "claim": "indices in paths are zero based (C60)",
  "targets": [
   "Props_Messages"
  ]
 },
 {
  "id": "G3",
  "file": "Messages",
  "definition": "path_display",
  "old": "seg_display s ++ path_display p'",
  "new": "path_display p' ++ seg_display s",
  "claim": "paths are printed outermost first (C60)",
  "targets": [
   "Props_Messages"
  ]
 },
 {
  "id": "G4",
  "file": "Messages",
  "definition": "seg_display",
  "old": "  s2l \".\" ++ match s with",
  "new": "  match s with",
  "claim": "path segments are separated by dots (C60)",
  "targets": [
   "Props_Messages"
  ]
 },
 {
  "id": "G5",
  "file": "Messages",
  "definition": "terr_display",
  "old": "s2l \"Error decoding value at \" ++ path_display at_ ++ s2l \": \" ++ show_cause c",
  "new": "s2l \"Error decoding value at \" ++ s2l \": \" ++ show_cause c",
  "claim": "the text contains the path (C60)",
  "targets": [
   "Props_Messages"
  ]
 },
 {
  "id": "G6",
  "file": "Messages",
  "definition": "display_value_with_typeid",
  "old": "write_value U string_wr typeid_cfg (Pretty 0) v w",
  "new": "write_value U string_wr typeid_cfg Normal v w",
  "claim": "the partial value is pretty printed (C60)",
  "targets": [
   "Props_Messages"
  ]
 },
 {
  "id": "G7",
  "file": "Messages",
  "definition": "typeid_cfg",
  "old": "custom_formatters := [format_hex string_wr]",
  "new": "custom_formatters := []",
  "claim": "byte lists in the partial value are hex (C60)",
  "targets": [
   "Props_Messages"
  ]
 },
 {
  "id": "G8",
  "file": "Messages",
  "definition": "terr_to_string",
  "old": "in if ok then Some t else None",
  "new": "in Some t",
  "claim": "to_string panics on 256-bit numbers (C60)",
  "targets": [
   "Props_Messages"
  ]
 },
 {
  "id": "L1",
  "file": "EncodeLoc",
  "definition": "encode_by_name_l",
  "old": "andthen_l (at_loc (LField (key_of fd)) (e (snd fd) out))",
  "new": "andthen_l (e (snd fd) out)",
  "claim": "the error path names the field (C65)",
  "targets": [
   "Props_Loc"
  ]
 },
 {
  "id": "L2",
  "file": "EncodeLoc",
  "definition": "indexed",
  "old": "(LIdx i, a) :: indexed (S i) l'",
  "new": "(LIdx i, a) :: indexed i l'",
  "claim": "the error path has the index of the element (C65)",
  "targets": [
   "Props_Loc"
  ]
 },
 {
  "id": "L3",
  "file": "EncodeLoc",
  "definition": "at_loc",
  "old": "(SErr _, _) => (fst r, l :: snd r)",
  "new": "(SErr _, _) => (fst r, snd r ++ [l])",
  "claim": "the path lists the outermost location first (C65)",
  "targets": [
   "Props_Loc"
  ]
 },
 {
  "id": "L4",
  "file": "EncodeLoc",
  "definition": "first_bad",
  "old": "Some _ => first_bad (S i) vs'",
  "new": "Some _ => first_bad i vs'",
  "claim": "the path has the index of the entry that is not a bit (C65)",
  "targets": [
   "Props_Loc"
  ]
 },
 {
  "id": "L5",
  "file": "EncodeLoc",
  "definition": "encode_composite_l",
  "old": "                  | _ => ((SErr original_error, out), path)\n                  end",
  "new": "                  | _ => nowhere (SErr original_error, out)\n                  end",
  "claim": "the location of the original error is kept (C65)",
  "targets": [
   "Props_Loc"
  ]
 },
 {
  "id": "L6",
  "file": "EncodeLoc",
  "definition": "located",
  "old": "match n with Some n => LField n | None => LIdx i end",
  "new": "match n with Some n => LField [] | None => LIdx i end",
  "claim": "the path has the name of the source field (C65)",
  "targets": [
   "Props_Loc"
  ]
 },
 {
  "id": "L7",
  "file": "EncodeLoc",
  "definition": "do_encode_l",
  "old": "encode_all_l (indexed 0 (map snd (values c))) t' out else",
  "new": "encode_all_l (indexed 1 (map snd (values c))) t' out else",
  "claim": "array elements are counted from 0 (C65)",
  "targets": [
   "Props_Loc"
  ]
 },
 {
  "id": "L8",
  "file": "EncodeLoc",
  "definition": "encode_struct_l",
  "old": "ResTy (TComposite fs) => match src with [(None, e)] => e t1 out",
  "new": "ResTy (TComposite fs) => match src with [(None, e)] => at_loc (LIdx 1) (e t1 out)",
  "claim": "a single value is passed on without location (C65)",
  "targets": [
   "Props_Loc"
  ]
 },
 {
  "id": "L9",
  "file": "EncodeLoc",
  "definition": "encode_fields_l",
  "old": "encode_in_order_l (located 0 src)",
  "new": "encode_in_order_l (located 0 (rev src))",
  "claim": "(also changes the bytes) fields are written in order (C65_same_encoder)",
  "targets": [
   "Props_Loc"
  ]
 },
 {
  "id": "K1",
  "file": "EncodeCost",
  "definition": "encode_c",
  "old": "plus_calls 1\n",
  "new": "plus_calls 0\n",
  "claim": "one call per value (C63)",
  "targets": [
   "Props_Cost"
  ]
 },
 {
  "id": "Q1",
  "file": "Encode",
  "definition": "encode_number",
  "old": "le_bytes (wbytes w) (Z.to_N (z mod 2 ^ Z.of_N (wbits w)))",
  "new": "le_bytes (wbytes w) (Z.to_N (Z.abs z))",
  "claim": "negative numbers are written in two's complement (C64)",
  "targets": [
   "Props_Same"
  ]
 },
 {
  "id": "Q2",
  "file": "Encode",
  "definition": "lookup_last",
  "old": "| Some e => Some e\n                   | None => if str_eqb (key_of f) name then Some (snd f) else None",
  "new": "| Some e => if str_eqb (key_of f) name then Some (snd f) else Some e\n                   | None => if str_eqb (key_of f) name then Some (snd f) else None",
  "claim": "the last field of a name counts (C64)",
  "targets": [
   "Props_Same"
  ]
 },
 {
  "id": "Q3",
  "file": "Encode",
  "definition": "encode_fields",
  "old": "if existsb named_field fs && existsb named_field src",
  "new": "if existsb named_field src",
  "claim": "(as it happens) fields go by position if the type has no names (C64)",
  "targets": [
   "Props_Same"
  ]
 },
 {
  "id": "Q4",
  "file": "Encode",
  "definition": "bit_of",
  "old": "Some (n =? 1) else None",
  "new": "Some (n =? 0) else None",
  "claim": "1 is a set bit (C64)",
  "targets": [
   "Props_Same"
  ]
 },
 {
  "id": "Q5",
  "file": "Encode",
  "definition": "encode_variant",
  "old": "find (fun v => str_eqb (vi_name v) name) vs",
  "new": "find (fun v => (vi_index v =? 0)) vs",
  "claim": "the variant is found by name (C64)",
  "targets": [
   "Props_Same"
  ]
 },
 {
  "id": "Q6",
  "file": "Encode",
  "definition": "encode_composite",
  "old": "                  | [x] => match snd x t' [] with",
  "new": "                  | x :: _ => match snd x t' [] with",
  "claim": "values besides the first are not dropped silently (C64)",
  "targets": [
   "Props_Same"
  ]
 },
 {
  "id": "Q7",
  "file": "Encode",
  "definition": "encode_char",
  "old": "then (SOk, out ++ le_bytes 4 c)",
  "new": "then (SOk, out ++ le_bytes 4 (c mod 65536))",
  "claim": "characters outside the first plane are kept (C64)",
  "targets": [
   "Props_Same"
  ]
 },
 {
  "id": "Q8",
  "file": "Encode",
  "definition": "encode_byte_array",
  "old": "(fun x => encode_number (Z.of_N x)) b) t' out else",
  "new": "(fun x => encode_number (Z.of_N x)) (rev b)) t' out else",
  "claim": "the bytes of a 256-bit number keep their order (C64)",
  "targets": [
   "Props_Same"
  ]
 },
 {
  "id": "Q9",
  "file": "Encode",
  "definition": "encode_in_order",
  "old": "| _, _ => (SOk, out)",
  "new": "| _, _ => (SOk, out ++ [0])",
  "claim": "nothing is added behind the fields (C64)",
  "targets": [
   "Props_Same"
  ]
 },
 {
  "id": "Q10",
  "file": "Encode",
  "definition": "in_unsigned",
  "old": "(z <? 2 ^ Z.of_N (wbits w))",
  "new": "(z <=? 2 ^ Z.of_N (wbits w))",
  "claim": "numbers out of range are refused (C64)",
  "targets": [
   "Props_Same"
  ]
 }
]