[
 {
  "id": "H13b",
  "file": "Chars",
  "definition": "is_whitespace",
  "old": "((9 <=? c) && (c <=? 13)) ||",
  "new": "((9 <=? c) && (c <=? 10)) ||",
  "claim": "white space is Unicode White_Space (C11, after adding C11_characters)",
  "targets": [
   "Props_Parse"
  ]
 },
 {
  "id": "SC1",
  "file": "SerdeCalls",
  "definition": "us_element",
  "old": "us_values := us_values s ++ [v]",
  "new": "us_values := v :: us_values s",
  "claim": "elements stay in order (C70)",
  "targets": [
   "Props_Parts"
  ]
 },
 {
  "id": "SC2",
  "file": "SerdeCalls",
  "definition": "us_element",
  "old": "| Err e => Returns (Err e) s\n  | Ok v => Returns (Ok tt) {| us_variant",
  "new": "| Err e => Returns (Err e) (us_new (us_variant s))\n  | Ok v => Returns (Ok tt) {| us_variant",
  "claim": "a failing element leaves the others alone (C70)",
  "targets": [
   "Props_Parts"
  ]
 },
 {
  "id": "SC3",
  "file": "SerdeCalls",
  "definition": "us_end",
  "old": "| Some n => unnamed_variant n (us_values s)",
  "new": "| Some n => unnamed_composite (us_values s)",
  "claim": "end keeps the variant name (C70)",
  "targets": [
   "Props_Parts"
  ]
 },
 {
  "id": "SC4",
  "file": "SerdeCalls",
  "definition": "ns_field",
  "old": "ns_values := ns_values s ++ [(k, v)]; ns_key := ns_key s",
  "new": "ns_values := ns_values s ++ [(k, v)]; ns_key := None",
  "claim": "a field in between does not use up a pending key (C70)",
  "targets": [
   "Props_Parts"
  ]
 },
 {
  "id": "SC5",
  "file": "SerdeCalls",
  "definition": "ns_serialize_key",
  "old": "ns_values := ns_values s; ns_key := Some str |}",
  "new": "ns_values := ns_values s; ns_key := match ns_key s with Some k0 => Some k0 | None => Some str end |}",
  "claim": "the last key counts (C70)",
  "targets": [
   "Props_Parts"
  ]
 },
 {
  "id": "SC6",
  "file": "SerdeCalls",
  "definition": "ns_serialize_value",
  "old": "ns_values := ns_values s; ns_key := None |} k x",
  "new": "ns_values := ns_values s; ns_key := ns_key s |} k x",
  "claim": "a value takes its key (C70)",
  "targets": [
   "Props_Parts"
  ]
 },
 {
  "id": "SC7",
  "file": "SerdeCalls",
  "definition": "ns_serialize_value",
  "old": "| None => Panics",
  "new": "| None => Returns (Err SEMapKeyMustBeStringlike) s",
  "claim": "a value without a key panics (C70)",
  "targets": [
   "Props_Parts"
  ]
 },
 {
  "id": "SC8",
  "file": "SerdeCalls",
  "definition": "ns_end",
  "old": "| None => named_composite (ns_values s)",
  "new": "| None => named_composite (rev (ns_values s))",
  "claim": "fields stay in order (C70)",
  "targets": [
   "Props_Parts"
  ]
 },
 {
  "id": "SC9",
  "file": "SerdeCalls",
  "definition": "ns_new",
  "old": "ns_variant := variant; ns_values := []; ns_key := None",
  "new": "ns_variant := None; ns_values := []; ns_key := None",
  "claim": "the variant name reaches end (C70)",
  "targets": [
   "Props_Parts"
  ]
 },
 {
  "id": "SC10",
  "file": "SerdeCalls",
  "definition": "ns_serialize_key",
  "old": "| Ok v =>\n      match key_of v with\n      | Err e => Returns (Err e) s",
  "new": "| Ok v =>\n      match key_of v with\n      | Err e => Returns (Err e) {| ns_variant := ns_variant s; ns_values := ns_values s; ns_key := None |}",
  "claim": "a bad key leaves the pending one (C70)",
  "targets": [
   "Props_Parts"
  ]
 },
 {
  "id": "CT1",
  "file": "SerdeContent",
  "definition": "buffer_f",
  "old": "if (w =? 128)%N then Err DType else Ok (KInt sg w z)",
  "new": "Ok (KInt sg w z)",
  "claim": "the buffer takes no 128-bit integer (C71)",
  "targets": [
   "Props_Content"
  ]
 },
 {
  "id": "CT2",
  "file": "SerdeContent",
  "definition": "buffer_f",
  "old": "| VEnum _ _ => Err DCustom",
  "new": "| VEnum n _ => Ok (KString n)",
  "claim": "the buffer takes no variant (C71)",
  "targets": [
   "Props_Content"
  ]
 },
 {
  "id": "CT3",
  "file": "SerdeContent",
  "definition": "split_tag",
  "old": "split_tag tag l' found (rest ++ [(k, c)])",
  "new": "split_tag tag l' found ((k, c) :: rest)",
  "claim": "the other entries reach the body in order (C71)",
  "targets": [
   "Props_Content"
  ]
 },
 {
  "id": "CT4",
  "file": "SerdeContent",
  "definition": "split_tag",
  "old": "| Some _ => Err DDuplicate\n            | None => bind (de_string s) (fun n => split_tag tag l' (Some n) rest)",
  "new": "| Some n => split_tag tag l' (Some n) rest\n            | None => bind (de_string s) (fun n => split_tag tag l' (Some n) rest)",
  "claim": "(serde: a second tag is an error) C71 says the tag appears once",
  "targets": [
   "Props_Content"
  ]
 },
 {
  "id": "CT5",
  "file": "SerdeContent",
  "definition": "de_adjacently_tagged",
  "old": "(fun c => bind (de_string s2) (fun n => buffered n c))",
  "new": "(fun c => bind (de_string s2) (fun n => direct n s1))",
  "claim": "content before the tag is buffered (C71)",
  "targets": [
   "Props_Content"
  ]
 },
 {
  "id": "CT6",
  "file": "SerdeContent",
  "definition": "split_flat",
  "old": "| None => bind (buffer s) (fun c => split_flat own l' acc (rest ++ [(k, c)]))",
  "new": "| None => split_flat own l' acc rest",
  "claim": "entries of flattened fields are buffered (C71)",
  "targets": [
   "Props_Content"
  ]
 },
 {
  "id": "CT7",
  "file": "SerdeContent",
  "definition": "first_that_reads",
  "old": "match f k with Ok x => Ok x | Err _ => first_that_reads alts' k end",
  "new": "match f k with Ok x => Ok x | Err e => Err e end",
  "claim": "untagged tries the alternatives in turn (C71)",
  "targets": [
   "Props_Content"
  ]
 },
 {
  "id": "FP1",
  "file": "FmtParts",
  "definition": "display_variant",
  "old": "(fmt_variant U string_wr (plain_cfg (s2l \"  \") []) in_default n c)",
  "new": "(fmt_composite U string_wr (plain_cfg (s2l \"  \") []) in_default c)",
  "claim": "Display of a Variant shows its name (C59)",
  "targets": [
   "Props_Layout"
  ]
 },
 {
  "id": "FP2",
  "file": "FmtParts",
  "definition": "display_with",
  "old": "if alternate then Pretty 0 else Normal",
  "new": "Normal",
  "claim": "{:#} of a part is the pretty layout (C59)",
  "targets": [
   "Props_Layout"
  ]
 },
 {
  "id": "FP3",
  "file": "FmtParts",
  "definition": "display_composite",
  "old": "(plain_cfg (s2l \"  \") []) in_default c)",
  "new": "(plain_cfg (s2l \"    \") []) in_default c)",
  "claim": "parts are indented as values are (C59)",
  "targets": [
   "Props_Layout"
  ]
 },
 {
  "id": "S40",
  "file": "Serde",
  "definition": "composite_de",
  "old": "Err DCustom\n    | HUnit",
  "new": "Ok (VSeq false (map SrcValue (values c)))\n    | HUnit",
  "claim": "tuples of another length are refused",
  "targets": [
   "Props_Serde",
   "Props_Parts"
  ]
 },
 {
  "id": "S41",
  "file": "Serde",
  "definition": "composite_de",
  "old": "Ok (VSeq false [SrcComposite c])",
  "new": "Ok (VSeq false (map SrcValue (values c)))",
  "claim": "a newtype struct wraps the composite itself",
  "targets": [
   "Props_Serde",
   "Props_Parts"
  ]
 },
 {
  "id": "S42",
  "file": "Serde",
  "definition": "composite_bytes",
  "old": "if (n <? 256)%N then Ok n",
  "new": "if (n <=? 256)%N then Ok n",
  "claim": "bytes are below 256",
  "targets": [
   "Props_Serde",
   "Props_Custom",
   "Props_Parts"
  ]
 },
 {
  "id": "S43",
  "file": "Serde",
  "definition": "variant_de",
  "old": "| HTuple _ | HTupleStruct _ | HUnitStruct | HUnit | HStruct | HMap | HSeq => composite_de c h",
  "new": "| HTuple _ | HTupleStruct _ | HUnitStruct | HUnit | HMap | HSeq => composite_de c h",
  "claim": "a bare Variant can be read as a struct (C69)",
  "targets": [
   "Props_Parts"
  ]
 },
 {
  "id": "S44",
  "file": "Serde",
  "definition": "variant_de",
  "old": "Ok (VSeq false [SrcVariant n c])",
  "new": "Ok (VSeq false [SrcComposite c])",
  "claim": "a newtype around a variant keeps the name",
  "targets": [
   "Props_Serde",
   "Props_Parts"
  ]
 },
 {
  "id": "S45",
  "file": "Serde",
  "definition": "prim_any",
  "old": "| PI256 b => VBytes b",
  "new": "| PI256 b => VSeq false []",
  "claim": "256-bit numbers give their bytes",
  "targets": [
   "Props_Serde",
   "Props_Parts"
  ]
 },
 {
  "id": "S46",
  "file": "Serde",
  "definition": "prim_de",
  "old": "| PI128 z => if in_int sg w z then VInt sg w z else prim_any p",
  "new": "| PI128 z => prim_any p",
  "claim": "signed numbers are read as every integer type they fit",
  "targets": [
   "Props_Serde",
   "Props_Parts"
  ]
 },
 {
  "id": "S47",
  "file": "Serde",
  "definition": "vdef_de",
  "old": "if str_eqb n (s2l \"Some\") && Nat.eqb (length vs) 1",
  "new": "if str_eqb n (s2l \"Some\") && negb (Nat.eqb (length vs) 0)",
  "claim": "Some with two values is no option",
  "targets": [
   "Props_Serde",
   "Props_Parts"
  ]
 },
 {
  "id": "S48",
  "file": "Serde",
  "definition": "vdef_de",
  "old": "else if str_eqb n (s2l \"None\") && Nat.eqb (length vs) 0 then Ok VNone",
  "new": "else if str_eqb n (s2l \"None\") then Ok VNone",
  "claim": "None with values is no option",
  "targets": [
   "Props_Serde",
   "Props_Parts"
  ]
 },
 {
  "id": "S49",
  "file": "Serde",
  "definition": "visit_prim",
  "old": "| VBytes b => if Nat.eqb (length b) 32 then Ok (PU256 b)",
  "new": "| VBytes b => if Nat.leb (length b) 32 then Ok (PU256 b)",
  "claim": "32 bytes make a U256 (C69 target)",
  "targets": [
   "Props_Parts",
   "Props_Serde"
  ]
 },
 {
  "id": "S50",
  "file": "Serde",
  "definition": "visit_prim",
  "old": "if Nat.eqb (length b) 32 then Ok (PU256 (map Z.to_N b))",
  "new": "if Nat.eqb (length b) 32 then Ok (PU256 (rev (map Z.to_N b)))",
  "claim": "the sequence of bytes keeps its order (C69 target)",
  "targets": [
   "Props_Parts"
  ]
 },
 {
  "id": "S51",
  "file": "Serde",
  "definition": "visit_composite",
  "old": "| VUnit => Ok (Unnamed [])",
  "new": "| VUnit => Err DType",
  "claim": "() is the empty composite",
  "targets": [
   "Props_Parts",
   "Props_Serde"
  ]
 },
 {
  "id": "S52",
  "file": "Serde",
  "definition": "variant_fields",
  "old": "else Err DUnknown",
  "new": "else variant_fields rec l' name vals",
  "claim": "unknown keys are refused (C69 target)",
  "targets": [
   "Props_Parts"
  ]
 },
 {
  "id": "S53",
  "file": "Serde",
  "definition": "variant_fields",
  "old": "variant_fields rec l' (Some n) vals",
  "new": "variant_fields rec l' (match name with Some n0 => Some n0 | None => Some n end) vals",
  "claim": "the last name counts (C69 target)",
  "targets": [
   "Props_Parts"
  ]
 },
 {
  "id": "S54",
  "file": "Serde",
  "definition": "visit_variant",
  "old": "| VSome s => rmap (fun v => (s2l \"Some\", Unnamed [v])) (rec s)",
  "new": "| VSome s => rmap (fun v => (s2l \"Just\", Unnamed [v])) (rec s)",
  "claim": "an option read as a Variant is Some",
  "targets": [
   "Props_Parts",
   "Props_Serde",
   "Props_Doors",
   "Props_Rust"
  ]
 },
 {
  "id": "S55",
  "file": "Serde",
  "definition": "visit_map_or_bits",
  "old": "Ok (DComposite (Named ((k, v) :: vs)))",
  "new": "Ok (DComposite (Named (vs ++ [(k, v)])))",
  "claim": "fields stay in order",
  "targets": [
   "Props_Serde",
   "Props_Parts"
  ]
 }
]