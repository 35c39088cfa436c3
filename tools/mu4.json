[
 {
  "id": "D11b",
  "file": "Decode",
  "definition": "decode_value_as_fields",
  "old": "Ok (Val (DComposite (fst x)) ctx, snd x)",
  "new": "Ok (Val (DComposite (fst x)) ctx, bs)",
  "claim": "field-wise decoding moves the cursor (C36, after tightening)",
  "targets": [
   "Props_Decode"
  ]
 },
 {
  "id": "V11",
  "file": "Value",
  "definition": "values",
  "old": "match c with Named l => map snd l | Unnamed l => l end",
  "new": "match c with Named l => rev (map snd l) | Unnamed l => l end",
  "claim": "values() gives the fields in order (C01..)",
  "targets": [
   "Props_Value"
  ]
 },
 {
  "id": "V12",
  "file": "Value",
  "definition": "clen",
  "old": "match c with Named l => length l | Unnamed l => length l end",
  "new": "match c with Named l => length l | Unnamed l => pred (length l) end",
  "claim": "len() is the number of values",
  "targets": [
   "Props_Value"
  ]
 },
 {
  "id": "V13",
  "file": "Value",
  "definition": "remove_context",
  "old": "map_ctx (fun _ => tt) v",
  "new": "match v with Val (DVariant n _) _ => Val (DVariant n (Unnamed [])) tt | _ => map_ctx (fun _ => tt) v end",
  "claim": "remove_context keeps the data",
  "targets": [
   "Props_Value"
  ]
 },
 {
  "id": "V14",
  "file": "Value",
  "definition": "from_uint",
  "old": "PU128 (as_u128_cast n)",
  "new": "PI128 (as_i128_cast n)",
  "claim": "unsigned integers become U128 (C58)",
  "targets": [
   "Props_Macro"
  ]
 },
 {
  "id": "V15",
  "file": "Value",
  "definition": "as_u128_cast",
  "old": "Z.to_N (n mod 2 ^ 128)",
  "new": "Z.to_N (n mod 2 ^ 64)",
  "claim": "u128 kept exactly (C58)",
  "targets": [
   "Props_Macro"
  ]
 },
 {
  "id": "V16",
  "file": "Value",
  "definition": "as_char",
  "old": "DPrim (PChar c) => Some c",
  "new": "DPrim (PChar c) => Some c | DPrim (PU128 n) => Some n",
  "claim": "as_char only for chars",
  "targets": [
   "Props_Value"
  ]
 },
 {
  "id": "V17",
  "file": "Value",
  "definition": "as_i128",
  "old": "match vdef_of v with DPrim (PI128 n) => Some n",
  "new": "match vdef_of v with DPrim (PI128 n) => Some n | DPrim (PU128 n) => Some (Z.of_N n)",
  "claim": "as_i128 only for i128",
  "targets": [
   "Props_Value"
  ]
 },
 {
  "id": "V18",
  "file": "Value",
  "definition": "at_path",
  "old": "fold_left at_opt path (Some v)",
  "new": "fold_left at_opt (rev path) (Some v)",
  "claim": "at() chains go from the outside in",
  "targets": [
   "Props_Value"
  ]
 },
 {
  "id": "V19",
  "file": "Value",
  "definition": "from_bytes",
  "old": "unnamed_composite (map vu128 b)",
  "new": "unnamed_composite (map (fun x => vi128 (Z.of_N x)) b)",
  "claim": "from_bytes gives u128s",
  "targets": [
   "Props_Serde",
   "Props_Custom",
   "Props_Macro",
   "Props_Value"
  ]
 },
 {
  "id": "V20",
  "file": "Value",
  "definition": "bit_sequence",
  "old": "Val (DBits b) tt",
  "new": "Val (DBits (rev b)) tt",
  "claim": "bit_sequence keeps the order",
  "targets": [
   "Props_Parse",
   "Props_Value",
   "Props_Fmt"
  ]
 },
 {
  "id": "V21",
  "file": "Value",
  "definition": "named_variant",
  "old": "Val (DVariant n (Named l)) tt",
  "new": "Val (DComposite (Named l)) tt",
  "claim": "named_variant makes a variant",
  "targets": [
   "Props_Value",
   "Props_Serde"
  ]
 },
 {
  "id": "H12",
  "file": "Chars",
  "definition": "is_digit",
  "old": "(48 <=? c) && (c <=? 57)",
  "new": "(48 <=? c) && (c <=? 58)",
  "claim": "digits are 0..9 (C12)",
  "targets": [
   "Props_Parse"
  ]
 },
 {
  "id": "H13",
  "file": "Chars",
  "definition": "is_whitespace",
  "old": "((9 <=? c) && (c <=? 13)) ||",
  "new": "((9 <=? c) && (c <=? 10)) ||",
  "claim": "white space is Unicode White_Space",
  "targets": [
   "Props_Parse",
   "Props_Fmt",
   "Props_Layout"
  ]
 },
 {
  "id": "H14",
  "file": "Chars",
  "definition": "is_ascii_alpha",
  "old": "((65 <=? c) && (c <=? 90)) || ((97 <=? c) && (c <=? 122))",
  "new": "((65 <=? c) && (c <=? 90)) || ((97 <=? c) && (c <? 122))",
  "claim": "z is a letter",
  "targets": [
   "Props_Parse",
   "Props_Fmt"
  ]
 },
 {
  "id": "P26",
  "file": "Parse",
  "definition": "token",
  "old": "if x =? c then (true, t') else (false, t)",
  "new": "if x =? c then (true, t') else (false, t')",
  "claim": "a refused token is not consumed",
  "targets": [
   "Props_Parse"
  ]
 },
 {
  "id": "P27",
  "file": "Parse",
  "definition": "digits_value",
  "old": "a * 10 + digit_val d",
  "new": "a * 10 + digit_val d - 0 * a + (if d =? 57 then 0 else 0)",
  "claim": "(equivalent: control)",
  "targets": [
   "Props_Parse"
  ]
 },
 {
  "id": "P28",
  "file": "Parse",
  "definition": "digits_value",
  "old": "fold_left (fun a d => a * 10 + digit_val d) ds 0",
  "new": "fold_left (fun a d => a * 8 + digit_val d) ds 0",
  "claim": "numbers are decimal",
  "targets": [
   "Props_Parse"
  ]
 },
 {
  "id": "P29",
  "file": "Parse",
  "definition": "parse_field_name",
  "old": "[parse_string; always parse_ident]",
  "new": "[always parse_ident; parse_string]",
  "claim": "quoted field names are accepted",
  "targets": [
   "Props_Parse"
  ]
 },
 {
  "id": "P30",
  "file": "Parse",
  "definition": "parse_optional_variant_ident",
  "old": "one_of [parse_i_string; ok_of parse_ident]",
  "new": "one_of [ok_of parse_ident; parse_i_string]",
  "claim": "v\"..\" is a variant name",
  "targets": [
   "Props_Parse"
  ]
 },
 {
  "id": "P31",
  "file": "Parse",
  "definition": "one_of",
  "old": "| (Err None, _) => one_of alts' t",
  "new": "| (Err None, t') => one_of alts' t'",
  "claim": "alternatives start at the same place",
  "targets": [
   "Props_Parse"
  ]
 },
 {
  "id": "P32",
  "file": "Parse",
  "definition": "sep_by",
  "old": "| (Ok a, t1) => sep_rest fuel item t1 [a]",
  "new": "| (Ok a, t1) => sep_rest fuel item t1 []",
  "claim": "the first item counts",
  "targets": [
   "Props_Parse"
  ]
 },
 {
  "id": "P33",
  "file": "Parse",
  "definition": "parse_bool",
  "old": "(Ok false, t')",
  "new": "(Ok false, t)",
  "claim": "false is consumed",
  "targets": [
   "Props_Parse"
  ]
 },
 {
  "id": "P34",
  "file": "Parse",
  "definition": "e_at_one",
  "old": "PErr loc (Some (loc + 1)) k",
  "new": "PErr loc (Some (loc + 2)) k",
  "claim": "error spans one byte (C06/C61)",
  "targets": [
   "Props_Parse",
   "Props_Messages"
  ]
 },
 {
  "id": "P35",
  "file": "Parse",
  "definition": "parse_variant",
  "old": "let t2 := skip_whitespace t1 in\n          match one_of",
  "new": "let t2 := t1 in\n          match one_of",
  "claim": "space between variant name and body",
  "targets": [
   "Props_Parse"
  ]
 },
 {
  "id": "S8",
  "file": "Scale",
  "definition": "take",
  "old": "(firstn k bs, skipn k bs)",
  "new": "(firstn k bs, skipn (pred k) bs)",
  "claim": "bytes are read once",
  "targets": [
   "Props_Decode"
  ]
 },
 {
  "id": "S9",
  "file": "Scale",
  "definition": "le_bytes",
  "old": "(n mod 256) :: le_bytes k' (n / 256)",
  "new": "le_bytes k' (n / 256) ++ [n mod 256]",
  "claim": "little endian",
  "targets": [
   "Props_Encode"
  ]
 },
 {
  "id": "S10",
  "file": "Scale",
  "definition": "compact_bytes",
  "old": "(N.size n + 7) / 8",
  "new": "(N.size n + 8) / 8",
  "claim": "compact big integers use the fewest bytes",
  "targets": [
   "Props_Encode"
  ]
 },
 {
  "id": "S11",
  "file": "Scale",
  "definition": "cont",
  "old": "(0x80 <=? b) && (b <? 0xC0)",
  "new": "(0x80 <=? b) && (b <=? 0xC0)",
  "claim": "continuation bytes",
  "targets": [
   "Props_Decode"
  ]
 },
 {
  "id": "S12",
  "file": "Scale",
  "definition": "word_of_bits",
  "old": "(if b then 1 else 0) + 2 * word_of_bits l'",
  "new": "(if b then 1 else 0) + 2 * word_of_bits (rev l')",
  "claim": "bit order",
  "targets": [
   "Props_Encode"
  ]
 },
 {
  "id": "S13",
  "file": "Scale",
  "definition": "pad_to",
  "old": "l ++ repeat false (w - length l)",
  "new": "repeat false (w - length l) ++ l",
  "claim": "padding behind the bits",
  "targets": [
   "Props_Encode"
  ]
 },
 {
  "id": "S14",
  "file": "Scale",
  "definition": "unpack_bits",
  "old": "unpack_bits st o n (skipn (bsbytes st) bs)",
  "new": "unpack_bits st o n bs",
  "claim": "every store word is read",
  "targets": [
   "Props_Decode",
   "Props_Encode"
  ]
 },
 {
  "id": "S15",
  "file": "Scale",
  "definition": "decode_bits",
  "old": "take (words_for st len * bsbytes st) (snd x)",
  "new": "take (len / 8 * bsbytes st) (snd x)",
  "claim": "bit sequences end at a store word",
  "targets": [
   "Props_Decode"
  ]
 },
 {
  "id": "S16",
  "file": "Registry",
  "definition": "wbytes",
  "old": "W64 => 8",
  "new": "W64 => 4",
  "claim": "u64 is 8 bytes",
  "targets": [
   "Props_Decode",
   "Props_Encode"
  ]
 },
 {
  "id": "S17",
  "file": "Scale",
  "definition": "encode_bits",
  "old": "N.of_nat (length b) mod 2 ^ 32",
  "new": "N.of_nat (words_for st (length b)) mod 2 ^ 32",
  "claim": "prefix counts bits",
  "targets": [
   "Props_Encode"
  ]
 },
 {
  "id": "D13",
  "file": "Decode",
  "definition": "has_unnamed",
  "old": "existsb",
  "new": "forallb",
  "claim": "a composite with an unnamed field is unnamed",
  "targets": [
   "Props_Decode"
  ]
 },
 {
  "id": "T13",
  "file": "Trace",
  "definition": "MAX_CAPACITY",
  "old": "100000000",
  "new": "1000000",
  "claim": "capacity limit value",
  "targets": [
   "Props_Decode",
   "Props_Messages"
  ]
 },
 {
  "id": "T14",
  "file": "Trace",
  "definition": "wrap_composite",
  "old": "Err (map_so_far (fun c => Val (DComposite c) t) e)",
  "new": "Err (map_so_far (fun c => Val (DVariant [] c) t) e)",
  "claim": "partial value is a composite",
  "targets": [
   "Props_Decode"
  ]
 },
 {
  "id": "E28",
  "file": "Encode",
  "definition": "named_field",
  "old": "match fst f with Some _ => true | None => false end",
  "new": "true",
  "claim": "fields without names are matched by position",
  "targets": [
   "Props_Encode"
  ]
 },
 {
  "id": "E29",
  "file": "Encode",
  "definition": "encode_primitive",
  "old": "| PI128 z => encode_number z",
  "new": "| PI128 z => encode_number (Z.abs z)",
  "claim": "negative numbers keep their sign",
  "targets": [
   "Props_Encode",
   "Props_Same"
  ]
 },
 {
  "id": "E30",
  "file": "Encode",
  "definition": "encode_all",
  "old": "andthen (e t out) (fun out' => encode_all es' t out')",
  "new": "andthen (e t out) (fun out' => encode_all es' t out)",
  "claim": "items are appended",
  "targets": [
   "Props_Encode"
  ]
 },
 {
  "id": "E31",
  "file": "Encode",
  "definition": "bits_of",
  "old": "option_map (cons b) (bits_of vs')",
  "new": "option_map (fun r => r ++ [b]) (bits_of vs')",
  "claim": "bit order",
  "targets": [
   "Props_Encode",
   "Props_Same"
  ]
 },
 {
  "id": "E32",
  "file": "Encode",
  "definition": "encode_composite_as_fields",
  "old": "encode_fields (source_fields (composite_map encode c)) fs out",
  "new": "encode_fields (source_fields (composite_map encode c)) fs []",
  "claim": "field encoding appends to the buffer",
  "targets": [
   "Props_Encode"
  ]
 },
 {
  "id": "E33",
  "file": "Encode",
  "definition": "andthen",
  "old": "| (s, out) => (s, out) end",
  "new": "| (SErr _, out) => k out | (s, out) => (s, out) end",
  "claim": "errors stop the encoder",
  "targets": [
   "Props_Encode"
  ]
 },
 {
  "id": "R24",
  "file": "Serde",
  "definition": "in_int",
  "old": "(- 2 ^ (Z.of_N w - 1) <=? z)",
  "new": "(- 2 ^ (Z.of_N w - 1) <? z)",
  "claim": "the least number of a signed type is accepted",
  "targets": [
   "Props_Serde"
  ]
 },
 {
  "id": "R25",
  "file": "Serde",
  "definition": "visit_char",
  "old": "| VString [c] => Ok c",
  "new": "| VString (c :: _) => Ok c",
  "claim": "a char is read only from a one-char string",
  "targets": [
   "Props_Serde"
  ]
 },
 {
  "id": "R26",
  "file": "Serde",
  "definition": "visit_elems",
  "old": "if strict then Err DLength else Ok (fst r)",
  "new": "Err DLength",
  "claim": "tuples and leftover elements",
  "targets": [
   "Props_Serde"
  ]
 },
 {
  "id": "R27",
  "file": "Serde",
  "definition": "map_insert",
  "old": "else if str_eqb k k' then (k', x) :: l'",
  "new": "else if str_eqb k k' then (k', x') :: l'",
  "claim": "the last entry of a key wins",
  "targets": [
   "Props_Serde"
  ]
 },
 {
  "id": "R28",
  "file": "Serde",
  "definition": "struct_entries",
  "old": "| Some _ => Err DDuplicate",
  "new": "| Some _ => struct_entries fs l' acc",
  "claim": "a field given twice is an error",
  "targets": [
   "Props_Serde"
  ]
 },
 {
  "id": "R29",
  "file": "Serde",
  "definition": "missing",
  "old": "TyOption _ => Ok XNone",
  "new": "TyUnit => Ok XUnit | TyOption _ => Ok XNone",
  "claim": "only Option fields may be absent",
  "targets": [
   "Props_Serde"
  ]
 },
 {
  "id": "R30",
  "file": "Serde",
  "definition": "ser_bits",
  "old": "SSeq (map SBool b)",
  "new": "SSeq (map SBool (rev b))",
  "claim": "bits in order",
  "targets": [
   "Props_Serde"
  ]
 },
 {
  "id": "R31",
  "file": "Serde",
  "definition": "ser_composite_with",
  "old": "| Unnamed l => SSeq (map f l)",
  "new": "| Unnamed l => SSeq (map f (rev l))",
  "claim": "order of values",
  "targets": [
   "Props_Serde",
   "Props_TextData"
  ]
 },
 {
  "id": "R32",
  "file": "Serde",
  "definition": "visit_variant",
  "old": "| VNone => Ok (s2l \"None\", Unnamed [])",
  "new": "| VNone => Ok (s2l \"None\", Named [])",
  "claim": "None becomes None()",
  "targets": [
   "Props_Serde"
  ]
 },
 {
  "id": "R33",
  "file": "Serde",
  "definition": "visit_enum",
  "old": "Some (VsNewtype f), _ => rmap (fun x => XEnum n (VsNewtype x)) (f (SrcComposite c))",
  "new": "Some (VsNewtype f), _ => match values c with v :: _ => rmap (fun x => XEnum n (VsNewtype x)) (f (SrcValue v)) | [] => Err DLength end",
  "claim": "newtype variants are given the whole composite",
  "targets": [
   "Props_Serde"
  ]
 },
 {
  "id": "R34",
  "file": "Serde",
  "definition": "variant_fields",
  "old": "else Err DUnknown",
  "new": "else variant_fields rec l' name vals",
  "claim": "unknown keys in a variant map are refused",
  "targets": [
   "Props_Serde"
  ]
 },
 {
  "id": "R35",
  "file": "Serde",
  "definition": "doc_de",
  "old": "| FChar c => VChar c",
  "new": "| FChar c => VString [c]",
  "claim": "documents (format model)",
  "targets": [
   "Props_Serde"
  ]
 },
 {
  "id": "R36",
  "file": "Serde",
  "definition": "de_ignored_f",
  "old": "| VEnum _ c => de_ignored_f f (SrcComposite c)",
  "new": "| VEnum _ c => Err DType",
  "claim": "unknown fields with variants are skipped",
  "targets": [
   "Props_Serde"
  ]
 },
 {
  "id": "R37",
  "file": "Serde",
  "definition": "vdef_any",
  "old": "| DBits b => bits_map b",
  "new": "| DBits b => VSeq false (map SrcBool b)",
  "claim": "bit sequences are read as the special map",
  "targets": [
   "Props_Serde"
  ]
 },
 {
  "id": "M12",
  "file": "Macro",
  "definition": "after_entry",
  "old": "| [] => done (acc ++ [(key_name key, v)])",
  "new": "| [] => done ((key_name key, v) :: acc)",
  "claim": "entries keep their order",
  "targets": [
   "Props_Macro"
  ]
 },
 {
  "id": "M13",
  "file": "Macro",
  "definition": "expand",
  "old": "| [TGroup Brace []] => Some (named_composite [])",
  "new": "| [TGroup Brace []] => Some (unnamed_composite [])",
  "claim": "value!({}) is an empty named composite",
  "targets": [
   "Props_Macro"
  ]
 },
 {
  "id": "M14",
  "file": "Macro",
  "definition": "value_rules",
  "old": "| TGroup Brace m :: r' => Some (next (EMac [TGroup Brace m]) r')",
  "new": "",
  "claim": "braces after a colon are values",
  "targets": [
   "Props_Macro"
  ]
 },
 {
  "id": "M15",
  "file": "Macro",
  "definition": "value_from",
  "old": "| RInt _ z => Val (DPrim (from_int z)) tt",
  "new": "| RInt _ z => Val (DPrim (from_uint z)) tt",
  "claim": "signed integers become I128",
  "targets": [
   "Props_Macro"
  ]
 },
 {
  "id": "M16",
  "file": "Macro",
  "definition": "entries_with",
  "old": "| Some x, Some r => Some ((k, x) :: r)",
  "new": "| Some x, Some r => Some (r ++ [(k, x)])",
  "claim": "entries keep their order",
  "targets": [
   "Props_Macro"
  ]
 },
 {
  "id": "F28",
  "file": "Fmt",
  "definition": "show_N",
  "old": "digits_fuel (S (N.size_nat n)) n []",
  "new": "digits_fuel (N.size_nat n) n []",
  "claim": "zero is written as 0",
  "targets": [
   "Props_Fmt"
  ]
 },
 {
  "id": "F29",
  "file": "Fmt",
  "definition": "fmt_escaped",
  "old": "andthen (write_char c_bslash) (write_char e)",
  "new": "write_char e",
  "claim": "escapes are written with a backslash",
  "targets": [
   "Props_Fmt"
  ]
 },
 {
  "id": "F30",
  "file": "Fmt",
  "definition": "fmt_bitsequence",
  "old": "if x then c_1 else c_0",
  "new": "if x then c_0 else c_1",
  "claim": "bits",
  "targets": [
   "Props_Fmt"
  ]
 },
 {
  "id": "F31",
  "file": "Fmt",
  "definition": "fmt_field",
  "old": "andthen (write_char c_colon) (andthen space",
  "new": "andthen space (andthen (write_char c_colon)",
  "claim": "colon before the space",
  "targets": [
   "Props_Layout"
  ]
 },
 {
  "id": "F32",
  "file": "Fmt",
  "definition": "display",
  "old": "Pretty 0 else Normal",
  "new": "Pretty 1 else Normal",
  "claim": "{:#} starts without indent",
  "targets": [
   "Props_Layout"
  ]
 },
 {
  "id": "F33",
  "file": "Fmt",
  "definition": "fmt_int",
  "old": "andthen (write_char c_minus) (write_str (show_N (Z.abs_N z)))",
  "new": "write_str (show_N (Z.abs_N z))",
  "claim": "negative sign",
  "targets": [
   "Props_Fmt",
   "Props_TextData",
   "Props_Doors"
  ]
 }
]