[
 {
  "id": "RD1",
  "file": "Serde",
  "definition": "composite_bytes",
  "old": "if (n <? 256)%N then Ok n else Err DCustom",
  "new": "if (n <=? 256)%N then Ok n else Err DCustom",
  "claim": "a byte is a number below 256",
  "targets": [
   "Props_Reads"
  ]
 },
 {
  "id": "RD2",
  "file": "Serde",
  "definition": "composite_de",
  "old": "if Nat.eqb (clen c) n then Ok (VSeq false (map SrcValue (values c))) else Err DCustom",
  "new": "if Nat.leb n (clen c) then Ok (VSeq false (map SrcValue (values c))) else Err DCustom",
  "claim": "tuples are read from as many fields",
  "targets": [
   "Props_Reads"
  ]
 },
 {
  "id": "RD3",
  "file": "Serde",
  "definition": "composite_de",
  "old": "| HSeq => Ok (VSeq false (map SrcValue (values c)))",
  "new": "| HSeq => Ok (VSeq false (map SrcValue (rev (values c))))",
  "claim": "sequences are read in order",
  "targets": [
   "Props_Reads"
  ]
 },
 {
  "id": "RD4",
  "file": "Serde",
  "definition": "composite_de",
  "old": "if cis_empty c then Ok VUnit else Err DCustom",
  "new": "Ok VUnit",
  "claim": "() is read only from composites without fields",
  "targets": [
   "Props_Reads"
  ]
 },
 {
  "id": "RD5",
  "file": "Serde",
  "definition": "composite_de",
  "old": "| HNewtypeStruct => Ok (VSeq false [SrcComposite c])",
  "new": "| HNewtypeStruct => Ok (VSeq false (map SrcValue (values c)))",
  "claim": "a newtype is read from the composite itself, not from its field",
  "targets": [
   "Props_Reads"
  ]
 },
 {
  "id": "RD6",
  "file": "Serde",
  "definition": "variant_de",
  "old": "| HTuple _ | HTupleStruct _ | HUnitStruct | HUnit | HStruct | HMap | HSeq => composite_de c h",
  "new": "| HTuple _ | HTupleStruct _ | HUnitStruct | HUnit | HStruct | HMap => composite_de c h",
  "claim": "a Vec is read from the fields of a variant",
  "targets": [
   "Props_Reads"
  ]
 },
 {
  "id": "RD7",
  "file": "Serde",
  "definition": "variant_de",
  "old": "HStruct | HMap | HSeq => composite_de c h",
  "new": "HStruct | HMap | HSeq | HBytes => composite_de c h",
  "claim": "a byte buffer is not read from a variant",
  "targets": [
   "Props_Reads"
  ]
 },
 {
  "id": "RD8",
  "file": "Serde",
  "definition": "prim_any",
  "old": "| PU256 b => VBytes b",
  "new": "| PU256 b => VSeq false (map (fun n => SrcPrim (PU128 n)) b)",
  "claim": "a U256 is seen as bytes",
  "targets": [
   "Props_Reads"
  ]
 },
 {
  "id": "RD9",
  "file": "Serde",
  "definition": "prim_de",
  "old": "| PI128 z => if in_int sg w z then VInt sg w z else prim_any p",
  "new": "| PI128 z => prim_any p",
  "claim": "a signed number in range is read as any integer type",
  "targets": [
   "Props_Reads"
  ]
 },
 {
  "id": "RD10",
  "file": "Serde",
  "definition": "bits_de",
  "old": "| HNewtypeStruct | HTuple _",
  "new": "| HTuple _",
  "claim": "a bit sequence is never read as a newtype",
  "targets": [
   "Props_Reads"
  ]
 },
 {
  "id": "RD11",
  "file": "Serde",
  "definition": "vdef_de",
  "old": "Nat.eqb (length vs) 0 then Ok VNone",
  "new": "Nat.eqb (length vs) 1 then Ok VNone",
  "claim": "None without fields is None",
  "targets": [
   "Props_Reads"
  ]
 },
 {
  "id": "RD12",
  "file": "Serde",
  "definition": "vdef_de",
  "old": "if str_eqb n (s2l \"Some\") && Nat.eqb (length vs) 1\n            then",
  "new": "if Nat.eqb (length vs) 1\n            then",
  "claim": "only a variant called Some is Some",
  "targets": [
   "Props_Reads"
  ]
 },
 {
  "id": "RD13",
  "file": "Serde",
  "definition": "vdef_de",
  "old": "| HStruct | HIdentifier | HIgnoredAny => Ok (vdef_any d)",
  "new": "| HIdentifier | HIgnoredAny => Ok (vdef_any d)",
  "claim": "a struct is not read from the fields of a variant",
  "targets": [
   "Props_Reads"
  ]
 },
 {
  "id": "RD14",
  "file": "Serde",
  "definition": "visit_int",
  "old": "if (w' =? 128)%N && negb (w =? 128)%N then Err DType\n        else if",
  "new": "if",
  "claim": "number types are not converted from out of range 128 bit numbers (the range check rejects them anyway)",
  "targets": [
   "Props_Reads"
  ]
 },
 {
  "id": "RD15",
  "file": "Serde",
  "definition": "visit_char",
  "old": "| VString [c] => Ok c",
  "new": "| VString (c :: _) => Ok c",
  "claim": "a char is read from a string of exactly one",
  "targets": [
   "Props_Reads"
  ]
 },
 {
  "id": "RD16",
  "file": "Serde",
  "definition": "visit_string",
  "old": "| VChar c => Ok [c]\n",
  "new": "",
  "claim": "a String is read from a char",
  "targets": [
   "Props_Reads"
  ]
 },
 {
  "id": "RD17",
  "file": "Serde",
  "definition": "visit_prim",
  "old": "| VInt true _ z => Ok (PI128 z)",
  "new": "| VInt true _ z => if (0 <=? z)%Z then Ok (PU128 (Z.to_N z)) else Ok (PI128 z)",
  "claim": "signed numbers stay signed",
  "targets": [
   "Props_Reads"
  ]
 },
 {
  "id": "RD18",
  "file": "Serde",
  "definition": "struct_entries",
  "old": "| Some _ => Err DDuplicate\n",
  "new": "| Some _ => struct_entries fs l' acc\n",
  "claim": "a field given twice is an error",
  "targets": [
   "Props_Reads"
  ]
 },
 {
  "id": "RD19",
  "file": "Serde",
  "definition": "struct_entries",
  "old": "| None => bind (de_ignored s) (fun _ => struct_entries fs l' acc)",
  "new": "| None => Err DUnknown",
  "claim": "unknown fields are skipped",
  "targets": [
   "Props_Reads"
  ]
 },
 {
  "id": "RD20",
  "file": "Serde",
  "definition": "missing",
  "old": "match t with TyOption _ => Ok XNone | _ => Err DMissing end",
  "new": "match t with TyOption _ => Ok XNone | TyUnit => Ok XUnit | _ => Err DMissing end",
  "claim": "only an absent Option is made up",
  "targets": [
   "Props_Reads"
  ]
 },
 {
  "id": "RD21",
  "file": "Serde",
  "definition": "visit_enum",
  "old": "| Some (VsNewtype f), _ => rmap (fun x => XEnum n (VsNewtype x)) (f (SrcComposite c))",
  "new": "| Some (VsNewtype f), _ => match values c with [v] => rmap (fun x => XEnum n (VsNewtype x)) (f (SrcValue v)) | _ => Err DLength end",
  "claim": "a newtype variant is read from the fields as a composite",
  "targets": [
   "Props_Reads"
  ]
 },
 {
  "id": "RD22",
  "file": "Serde",
  "definition": "visit_enum",
  "old": "rmap (fun l => XEnum n (VsStruct l)) (visit_struct fs m (composite_any c))",
  "new": "bind (composite_de c HStruct) (fun e => match e with VSeq _ _ => Err DType | _ => rmap (fun l => XEnum n (VsStruct l)) (visit_struct fs m e) end)",
  "claim": "a struct variant is read from unnamed fields too",
  "targets": [
   "Props_Reads"
  ]
 },
 {
  "id": "RD23",
  "file": "Serde",
  "definition": "map_insert",
  "old": "else if str_eqb k k' then (k', x) :: l'",
  "new": "else if str_eqb k k' then (k', x') :: l'",
  "claim": "the last of equal keys wins",
  "targets": [
   "Props_Reads"
  ]
 },
 {
  "id": "RD24",
  "file": "Serde",
  "definition": "visit_composite",
  "old": "| VUnit => Ok (Unnamed [])\n    | VSeq",
  "new": "| VUnit => Ok (Named [])\n    | VSeq",
  "claim": "(unit is never shown when anything is asked for: equivalent on values)",
  "targets": [
   "Props_Reads"
  ]
 },
 {
  "id": "RD25",
  "file": "Serde",
  "definition": "visit_variant",
  "old": "| VEnum n c => rmap (pair n) (de_composite_with rec (SrcComposite c))",
  "new": "| VEnum n c => rmap (fun c' => (n, Unnamed (values c'))) (de_composite_with rec (SrcComposite c))",
  "claim": "field names of a copied variant stay",
  "targets": [
   "Props_Reads"
  ]
 },
 {
  "id": "RD26",
  "file": "Serde",
  "definition": "visit_map_or_bits",
  "old": "| [] => Ok (DComposite (Named []))",
  "new": "| [] => Ok (DComposite (Unnamed []))",
  "claim": "an empty named composite stays named",
  "targets": [
   "Props_Reads"
  ]
 },
 {
  "id": "RD27",
  "file": "Serde",
  "definition": "variant_fields",
  "old": "bind (de_string s) (fun n => variant_fields rec l' (Some n) vals)",
  "new": "bind (de_string s) (fun n => variant_fields rec l' (match name with None => Some n | _ => name end) vals)",
  "claim": "the last name wins",
  "targets": [
   "Props_Reads"
  ]
 },
 {
  "id": "RD28",
  "file": "Serde",
  "definition": "variant_fields",
  "old": "else Err DUnknown",
  "new": "else variant_fields rec l' name vals",
  "claim": "an unknown key is an error",
  "targets": [
   "Props_Reads"
  ]
 },
 {
  "id": "RD29",
  "file": "Serde",
  "definition": "de",
  "old": "| VNone | VUnit => Ok XNone",
  "new": "| VNone => Ok XNone",
  "claim": "() as Option is None (an Option from a value: never shown unit: equivalent)",
  "targets": [
   "Props_Reads"
  ]
 },
 {
  "id": "RD30",
  "file": "Serde",
  "definition": "visit_vec",
  "old": "match e with VSeq _ l => mapM f l | _ => Err DType end",
  "new": "match e with VSeq _ l => mapM f l | VUnit => Ok [] | _ => Err DType end",
  "claim": "(unit never shown for a Vec: equivalent)",
  "targets": [
   "Props_Reads"
  ]
 },
 {
  "id": "MS1b",
  "file": "ParseState",
  "definition": "mrun",
  "old": "| (m', (None, cur)) => mrun ps' m' cur",
  "new": "| (m', (None, cur)) => mrun ps' m cur",
  "claim": "what a declining parser remembers stays",
  "targets": [
   "Props_Memory"
  ]
 },
 {
  "id": "MS12",
  "file": "ParseState",
  "definition": "mrun",
  "old": "| (m', (None, cur)) => mrun ps' m' cur",
  "new": "| (m', (None, cur)) => mrun ps' m' cursor",
  "claim": "a declining parser hands on the cursor as it leaves it",
  "targets": [
   "Props_Memory"
  ]
 }
]