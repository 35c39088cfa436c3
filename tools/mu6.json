[
 {
  "id": "S16b",
  "file": "Registry",
  "definition": "wbytes",
  "old": "W64 => 8",
  "new": "W64 => 4",
  "claim": "u64 is 8 bytes (after giving Spec_Scale its own table)",
  "targets": [
   "Props_Decode",
   "Props_Encode"
  ]
 },
 {
  "id": "S16c",
  "file": "Registry",
  "definition": "bsbytes",
  "old": "B32 => 4",
  "new": "B32 => 8",
  "claim": "u32 store words are 4 bytes",
  "targets": [
   "Props_Decode",
   "Props_Encode"
  ]
 },
 {
  "id": "T13b",
  "file": "Trace",
  "definition": "MAX_CAPACITY",
  "old": "100000000",
  "new": "1000000",
  "claim": "capacity limit value (literal in the statements)",
  "targets": [
   "Props_Decode",
   "Props_Alloc"
  ]
 },
 {
  "id": "R27b",
  "file": "Serde",
  "definition": "map_insert",
  "old": "else if str_eqb k k' then (k', x) :: l'",
  "new": "else if str_eqb k k' then (k', x') :: l'",
  "claim": "the last entry of a key wins (C76)",
  "targets": [
   "Props_Maps"
  ]
 },
 {
  "id": "R27c",
  "file": "Serde",
  "definition": "map_insert",
  "old": "if str_ltb k k' then (k, x) :: l\n",
  "new": "if str_ltb k' k then (k, x) :: l\n",
  "claim": "maps are sorted (C76)",
  "targets": [
   "Props_Maps"
  ]
 },
 {
  "id": "R27d",
  "file": "Serde",
  "definition": "str_ltb",
  "old": "| [], _ :: _ => true",
  "new": "| [], _ :: _ => false",
  "claim": "a prefix comes first (C76)",
  "targets": [
   "Props_Maps"
  ]
 },
 {
  "id": "R27e",
  "file": "Serde",
  "definition": "de",
  "old": "bind (visit_char (T := T) (VString (fst kv))) (fun c => rmap (pair [c]) (de t' (snd kv)))",
  "new": "bind (visit_char (T := T) (VString (firstn 1 (fst kv)))) (fun c => rmap (pair [c]) (de t' (snd kv)))",
  "claim": "char keys are single chars (C76)",
  "targets": [
   "Props_Maps"
  ]
 },
 {
  "id": "R27f",
  "file": "Serde",
  "definition": "variant_de",
  "old": "| HTuple _ | HTupleStruct _ | HUnitStruct | HUnit | HStruct | HMap | HSeq => composite_de c h",
  "new": "| HTuple _ | HTupleStruct _ | HUnitStruct | HUnit | HStruct | HSeq => composite_de c h",
  "claim": "a map is read from a named variant (C76)",
  "targets": [
   "Props_Maps"
  ]
 },
 {
  "id": "R32b",
  "file": "Serde",
  "definition": "visit_variant",
  "old": "| VNone => Ok (s2l \"None\", Unnamed [])",
  "new": "| VNone => Ok (s2l \"None\", Named [])",
  "claim": "None becomes None() (C75)",
  "targets": [
   "Props_Foreign"
  ]
 },
 {
  "id": "CT7b",
  "file": "SerdeContent",
  "definition": "first_that_reads",
  "old": "match f k with Ok x => Ok x | Err _ => first_that_reads alts' k end",
  "new": "match f k with Ok x => Ok x | Err e => Err e end",
  "claim": "untagged tries the alternatives in turn (C71)",
  "targets": [
   "Props_Content"
  ]
 },
 {
  "id": "S51b",
  "file": "Serde",
  "definition": "visit_composite",
  "old": "| VUnit => Ok (Unnamed [])",
  "new": "| VUnit => Err DType",
  "claim": "null is the empty composite (C75)",
  "targets": [
   "Props_Foreign"
  ]
 },
 {
  "id": "S51c",
  "file": "Serde",
  "definition": "visit_composite",
  "old": "| VUnit => Ok (Unnamed [])",
  "new": "| VUnit => Ok (Named [])",
  "claim": "null is the empty unnamed composite (C75)",
  "targets": [
   "Props_Foreign"
  ]
 },
 {
  "id": "S54b",
  "file": "Serde",
  "definition": "visit_variant",
  "old": "| VSome s => rmap (fun v => (s2l \"Some\", Unnamed [v])) (rec s)",
  "new": "| VSome s => rmap (fun v => (s2l \"Just\", Unnamed [v])) (rec s)",
  "claim": "an option read as a Variant is Some (C75)",
  "targets": [
   "Props_Foreign"
  ]
 },
 {
  "id": "FO1",
  "file": "Serde",
  "definition": "visit_variant",
  "old": "| VEnumOf n (Some s) => rmap (pair n) (de_composite_with rec s)",
  "new": "| VEnumOf n (Some s) => rmap (fun v => (n, Unnamed [v])) (rec s)",
  "claim": "the contents of an enum are its fields (C75)",
  "targets": [
   "Props_Foreign"
  ]
 },
 {
  "id": "FO2",
  "file": "Serde",
  "definition": "visit_composite",
  "old": "| VBytes b => Ok (Unnamed (map vu128 b))",
  "new": "| VBytes b => Ok (Unnamed (map vu128 (rev b)))",
  "claim": "bytes in order (C75)",
  "targets": [
   "Props_Foreign"
  ]
 },
 {
  "id": "FO3",
  "file": "Serde",
  "definition": "visit_valuedef",
  "old": "| VFloat => Err DType",
  "new": "| VFloat => Ok (DPrim (PU128 0))",
  "claim": "floats are refused (C75)",
  "targets": [
   "Props_Foreign"
  ]
 },
 {
  "id": "FO4",
  "file": "Serde",
  "definition": "visit_map_or_bits",
  "old": "if str_eqb k bitvec_key then",
  "new": "if false then",
  "claim": "the reserved key gives bits (C75)",
  "targets": [
   "Props_Foreign"
  ]
 },
 {
  "id": "FO5",
  "file": "Serde",
  "definition": "visit_map_or_bits",
  "old": "Ok (DComposite (Named ((k, v) :: vs)))",
  "new": "Ok (DComposite (Named (vs ++ [(k, v)])))",
  "claim": "the first entry of a map stays first (C75)",
  "targets": [
   "Props_Foreign"
  ]
 },
 {
  "id": "FO6",
  "file": "Serde",
  "definition": "visit_prim",
  "old": "| VBytes b => if Nat.eqb (length b) 32 then Ok (PU256 b) else Err DType",
  "new": "| VBytes b => if Nat.leb (length b) 32 then Ok (PU256 b) else Err DType",
  "claim": "a primitive is read from 32 bytes only (C75)",
  "targets": [
   "Props_Foreign"
  ]
 },
 {
  "id": "FO7",
  "file": "Serde",
  "definition": "visit_prim",
  "old": "if Nat.eqb (length b) 32 then Ok (PU256 (map Z.to_N b)) else Err DLength",
  "new": "Ok (PU256 (map Z.to_N b))",
  "claim": "a primitive is read from lists of 32 bytes only (C75)",
  "targets": [
   "Props_Foreign"
  ]
 },
 {
  "id": "FO8",
  "file": "Serde",
  "definition": "visit_prim",
  "old": "| VInt true _ z => Ok (PI128 z)",
  "new": "| VInt true _ z => Ok (PU128 (Z.to_N z))",
  "claim": "negative numbers are kept (C75)",
  "targets": [
   "Props_Foreign"
  ]
 },
 {
  "id": "FO9",
  "file": "Serde",
  "definition": "variant_fields",
  "old": "else Err DUnknown",
  "new": "else variant_fields rec l' name vals",
  "claim": "other keys are refused (C75)",
  "targets": [
   "Props_Foreign",
   "Props_Parts"
  ]
 },
 {
  "id": "FO10",
  "file": "Serde",
  "definition": "first_ok_type",
  "old": "if in_int sg w z then SInt sg w z",
  "new": "if in_int sg w z then SInt (negb sg) w z",
  "claim": "integers are written with their sign (C75)",
  "targets": [
   "Props_Foreign",
   "Props_Serde"
  ]
 },
 {
  "id": "AL1",
  "file": "Alloc",
  "definition": "l_unnamed",
  "old": "reserve remaining (lbind (l_items dec ts bs)",
  "new": "id (lbind (l_items dec ts bs)",
  "claim": "the plain decoder reserves room for a list before reading it (C73)",
  "targets": [
   "Props_Alloc"
  ]
 },
 {
  "id": "AL2",
  "file": "Alloc",
  "definition": "l_composite",
  "old": "reserve (N.of_nat (length fs))\n",
  "new": "reserve (N.of_nat (length fs) + 1)\n",
  "claim": "exactly the room needed (C73)",
  "targets": [
   "Props_Alloc"
  ]
 },
 {
  "id": "AL3",
  "file": "Alloc",
  "definition": "lt_unnamed_composite",
  "old": "if MAX_CAPACITY <? remaining then quiet (Err (FromDecode CCapacity)) else reserve remaining (lt_unnamed 0 [] ts bs)",
  "new": "reserve remaining (if MAX_CAPACITY <? remaining then quiet (Err (FromDecode CCapacity)) else lt_unnamed 0 [] ts bs)",
  "claim": "the check precedes the reservation (C73)",
  "targets": [
   "Props_Alloc"
  ]
 },
 {
  "id": "AL4",
  "file": "Alloc",
  "definition": "lt_composite",
  "old": "reserve (N.of_nat (length fs)) (lt_named [] fs bs)",
  "new": "lt_named [] fs bs",
  "claim": "named fields reserve (C73)",
  "targets": [
   "Props_Alloc"
  ]
 },
 {
  "id": "AL5",
  "file": "Alloc",
  "definition": "lbind",
  "old": "| Err e => (Err e, snd m)",
  "new": "| Err e => (Err e, [])",
  "claim": "what was reserved before an error counts (C73)",
  "targets": [
   "Props_Alloc"
  ]
 },
 {
  "id": "AL6",
  "file": "Alloc",
  "definition": "ldecode",
  "old": "else l_unnamed (ldecode f compact) t (N.of_nat (length ts)) ts bs",
  "new": "else l_unnamed (ldecode f compact) t 0 ts bs",
  "claim": "tuples reserve their length (C73)",
  "targets": [
   "Props_Alloc"
  ]
 },
 {
  "id": "XL1",
  "file": "Registry",
  "definition": "x_len",
  "old": "then 64%N else 32%N",
  "new": "then 32%N else 32%N",
  "claim": "where lengths are read as u64, long lengths are accepted (C24_long_refuted, C21)",
  "targets": [
   "Props_Decode",
   "Props_Encode"
  ]
 }
]