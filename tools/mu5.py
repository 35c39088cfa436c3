import json
M=[]
def m(id,file,d,old,new,claim,targets): M.append(dict(id=id,file=file,definition=d,old=old,new=new,claim=claim,targets=targets.split()))
m("H13b","Chars","is_whitespace","((9 <=? c) && (c <=? 13)) ||","((9 <=? c) && (c <=? 10)) ||","white space is Unicode White_Space (C11, after adding C11_characters)","Props_Parse")
m("SC1","SerdeCalls","us_element","us_values := us_values s ++ [v]","us_values := v :: us_values s","elements stay in order (C70)","Props_Parts")
m("SC2","SerdeCalls","us_element","| Err e => Returns (Err e) s\n  | Ok v => Returns (Ok tt) {| us_variant","| Err e => Returns (Err e) (us_new (us_variant s))\n  | Ok v => Returns (Ok tt) {| us_variant","a failing element leaves the others alone (C70)","Props_Parts")
m("SC3","SerdeCalls","us_end","| Some n => unnamed_variant n (us_values s)","| Some n => unnamed_composite (us_values s)","end keeps the variant name (C70)","Props_Parts")
m("SC4","SerdeCalls","ns_field","ns_values := ns_values s ++ [(k, v)]; ns_key := ns_key s","ns_values := ns_values s ++ [(k, v)]; ns_key := None","a field in between does not use up a pending key (C70)","Props_Parts")
m("SC5","SerdeCalls","ns_serialize_key","ns_values := ns_values s; ns_key := Some str |}","ns_values := ns_values s; ns_key := match ns_key s with Some k0 => Some k0 | None => Some str end |}","the last key counts (C70)","Props_Parts")
m("SC6","SerdeCalls","ns_serialize_value","ns_values := ns_values s; ns_key := None |} k x","ns_values := ns_values s; ns_key := ns_key s |} k x","a value takes its key (C70)","Props_Parts")
m("SC7","SerdeCalls","ns_serialize_value","| None => Panics","| None => Returns (Err SEMapKeyMustBeStringlike) s","a value without a key panics (C70)","Props_Parts")
m("SC8","SerdeCalls","ns_end","| None => named_composite (ns_values s)","| None => named_composite (rev (ns_values s))","fields stay in order (C70)","Props_Parts")
m("SC9","SerdeCalls","ns_new","ns_variant := variant; ns_values := []; ns_key := None","ns_variant := None; ns_values := []; ns_key := None","the variant name reaches end (C70)","Props_Parts")
m("SC10","SerdeCalls","ns_serialize_key","| Ok v =>\n      match key_of v with\n      | Err e => Returns (Err e) s","| Ok v =>\n      match key_of v with\n      | Err e => Returns (Err e) {| ns_variant := ns_variant s; ns_values := ns_values s; ns_key := None |}","a bad key leaves the pending one (C70)","Props_Parts")
m("CT1","SerdeContent","buffer_f","if (w =? 128)%N then Err DType else Ok (KInt sg w z)","Ok (KInt sg w z)","the buffer takes no 128-bit integer (C71)","Props_Content")
m("CT2","SerdeContent","buffer_f","| VEnum _ _ => Err DCustom","| VEnum n _ => Ok (KString n)","the buffer takes no variant (C71)","Props_Content")
m("CT3","SerdeContent","split_tag","split_tag tag l' found (rest ++ [(k, c)])","split_tag tag l' found ((k, c) :: rest)","the other entries reach the body in order (C71)","Props_Content")
m("CT4","SerdeContent","split_tag","| Some _ => Err DDuplicate\n            | None => bind (de_string s) (fun n => split_tag tag l' (Some n) rest)","| Some n => split_tag tag l' (Some n) rest\n            | None => bind (de_string s) (fun n => split_tag tag l' (Some n) rest)","(serde: a second tag is an error) C71 says the tag appears once","Props_Content")
m("CT5","SerdeContent","de_adjacently_tagged","(fun c => bind (de_string s2) (fun n => buffered n c))","(fun c => bind (de_string s2) (fun n => direct n s1))","content before the tag is buffered (C71)","Props_Content")
m("CT6","SerdeContent","split_flat","| None => bind (buffer s) (fun c => split_flat own l' acc (rest ++ [(k, c)]))","| None => split_flat own l' acc rest","entries of flattened fields are buffered (C71)","Props_Content")
m("CT7","SerdeContent","first_that_reads","match f k with Ok x => Ok x | Err _ => first_that_reads alts' k end","match f k with Ok x => Ok x | Err e => Err e end","untagged tries the alternatives in turn (C71)","Props_Content")
m("FP1","FmtParts","display_variant","(fmt_variant U string_wr (plain_cfg (s2l \"  \") []) in_default n c)","(fmt_composite U string_wr (plain_cfg (s2l \"  \") []) in_default c)","Display of a Variant shows its name (C59)","Props_Layout")
m("FP2","FmtParts","display_with","if alternate then Pretty 0 else Normal","Normal","{:#} of a part is the pretty layout (C59)","Props_Layout")
m("FP3","FmtParts","display_composite","(plain_cfg (s2l \"  \") []) in_default c)","(plain_cfg (s2l \"    \") []) in_default c)","parts are indented as values are (C59)","Props_Layout")
m("S40","Serde","composite_de","Err DCustom\n    | HUnit","Ok (VSeq false (map SrcValue (values c)))\n    | HUnit","tuples of another length are refused","Props_Serde Props_Parts")
m("S41","Serde","composite_de","Ok (VSeq false [SrcComposite c])","Ok (VSeq false (map SrcValue (values c)))","a newtype struct wraps the composite itself","Props_Serde Props_Parts")
m("S42","Serde","composite_bytes","if (n <? 256)%N then Ok n","if (n <=? 256)%N then Ok n","bytes are below 256","Props_Serde Props_Custom Props_Parts")
m("S43","Serde","variant_de","| HTuple _ | HTupleStruct _ | HUnitStruct | HUnit | HStruct | HMap | HSeq => composite_de c h","| HTuple _ | HTupleStruct _ | HUnitStruct | HUnit | HMap | HSeq => composite_de c h","a bare Variant can be read as a struct (C69)","Props_Parts")
m("S44","Serde","variant_de","Ok (VSeq false [SrcVariant n c])","Ok (VSeq false [SrcComposite c])","a newtype around a variant keeps the name","Props_Serde Props_Parts")
m("S45","Serde","prim_any","| PI256 b => VBytes b","| PI256 b => VSeq false []","256-bit numbers give their bytes","Props_Serde Props_Parts")
m("S46","Serde","prim_de","| PI128 z => if in_int sg w z then VInt sg w z else prim_any p","| PI128 z => prim_any p","signed numbers are read as every integer type they fit","Props_Serde Props_Parts")
m("S47","Serde","vdef_de","if str_eqb n (s2l \"Some\") && Nat.eqb (length vs) 1","if str_eqb n (s2l \"Some\") && negb (Nat.eqb (length vs) 0)","Some with two values is no option","Props_Serde Props_Parts")
m("S48","Serde","vdef_de","else if str_eqb n (s2l \"None\") && Nat.eqb (length vs) 0 then Ok VNone","else if str_eqb n (s2l \"None\") then Ok VNone","None with values is no option","Props_Serde Props_Parts")
m("S49","Serde","visit_prim","| VBytes b => if Nat.eqb (length b) 32 then Ok (PU256 b)","| VBytes b => if Nat.leb (length b) 32 then Ok (PU256 b)","32 bytes make a U256 (C69 target)","Props_Parts Props_Serde")
m("S50","Serde","visit_prim","if Nat.eqb (length b) 32 then Ok (PU256 (map Z.to_N b))","if Nat.eqb (length b) 32 then Ok (PU256 (rev (map Z.to_N b)))","the sequence of bytes keeps its order (C69 target)","Props_Parts")
m("S51","Serde","visit_composite","| VUnit => Ok (Unnamed [])","| VUnit => Err DType","() is the empty composite","Props_Parts Props_Serde")
m("S52","Serde","variant_fields","else Err DUnknown","else variant_fields rec l' name vals","unknown keys are refused (C69 target)","Props_Parts")
m("S53","Serde","variant_fields","variant_fields rec l' (Some n) vals","variant_fields rec l' (match name with Some n0 => Some n0 | None => Some n end) vals","the last name counts (C69 target)","Props_Parts")
m("S54","Serde","visit_variant","| VSome s => rmap (fun v => (s2l \"Some\", Unnamed [v])) (rec s)","| VSome s => rmap (fun v => (s2l \"Just\", Unnamed [v])) (rec s)","an option read as a Variant is Some","Props_Parts Props_Serde Props_Doors Props_Rust")
m("S55","Serde","visit_map_or_bits","Ok (DComposite (Named ((k, v) :: vs)))","Ok (DComposite (Named (vs ++ [(k, v)])))","fields stay in order","Props_Serde Props_Parts")
json.dump(M,open('mu5.json','w'),indent=1)
print(len(M))
