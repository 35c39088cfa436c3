import json
M=[]
def m(id,file,d,old,new,claim,targets): M.append(dict(id=id,file=file,definition=d,old=old,new=new,claim=claim,targets=targets.split()))
m("S16b","Registry","wbytes","W64 => 8","W64 => 4","u64 is 8 bytes (after giving Spec_Scale its own table)","Props_Decode Props_Encode")
m("S16c","Registry","bsbytes","B32 => 4","B32 => 8","u32 store words are 4 bytes","Props_Decode Props_Encode")
m("T13b","Trace","MAX_CAPACITY","100000000","1000000","capacity limit value (literal in the statements)","Props_Decode Props_Alloc")
m("R27b","Serde","map_insert","else if str_eqb k k' then (k', x) :: l'","else if str_eqb k k' then (k', x') :: l'","the last entry of a key wins (C76)","Props_Maps")
m("R27c","Serde","map_insert","if str_ltb k k' then (k, x) :: l\n","if str_ltb k' k then (k, x) :: l\n","maps are sorted (C76)","Props_Maps")
m("R27d","Serde","str_ltb","| [], _ :: _ => true","| [], _ :: _ => false","a prefix comes first (C76)","Props_Maps")
m("R27e","Serde","de","bind (visit_char (T := T) (VString (fst kv))) (fun c => rmap (pair [c]) (de t' (snd kv)))","bind (visit_char (T := T) (VString (firstn 1 (fst kv)))) (fun c => rmap (pair [c]) (de t' (snd kv)))","char keys are single chars (C76)","Props_Maps")
m("R27f","Serde","variant_de","| HTuple _ | HTupleStruct _ | HUnitStruct | HUnit | HStruct | HMap | HSeq => composite_de c h","| HTuple _ | HTupleStruct _ | HUnitStruct | HUnit | HStruct | HSeq => composite_de c h","a map is read from a named variant (C76)","Props_Maps")
m("R32b","Serde","visit_variant","| VNone => Ok (s2l \"None\", Unnamed [])","| VNone => Ok (s2l \"None\", Named [])","None becomes None() (C75)","Props_Foreign")
m("CT7b","SerdeContent","first_that_reads","match f k with Ok x => Ok x | Err _ => first_that_reads alts' k end","match f k with Ok x => Ok x | Err e => Err e end","untagged tries the alternatives in turn (C71)","Props_Content")
m("S51b","Serde","visit_composite","| VUnit => Ok (Unnamed [])","| VUnit => Err DType","null is the empty composite (C75)","Props_Foreign")
m("S51c","Serde","visit_composite","| VUnit => Ok (Unnamed [])","| VUnit => Ok (Named [])","null is the empty unnamed composite (C75)","Props_Foreign")
m("S54b","Serde","visit_variant","| VSome s => rmap (fun v => (s2l \"Some\", Unnamed [v])) (rec s)","| VSome s => rmap (fun v => (s2l \"Just\", Unnamed [v])) (rec s)","an option read as a Variant is Some (C75)","Props_Foreign")
m("FO1","Serde","visit_variant","| VEnumOf n (Some s) => rmap (pair n) (de_composite_with rec s)","| VEnumOf n (Some s) => rmap (fun v => (n, Unnamed [v])) (rec s)","the contents of an enum are its fields (C75)","Props_Foreign")
m("FO2","Serde","visit_composite","| VBytes b => Ok (Unnamed (map vu128 b))","| VBytes b => Ok (Unnamed (map vu128 (rev b)))","bytes in order (C75)","Props_Foreign")
m("FO3","Serde","visit_valuedef","| VFloat => Err DType","| VFloat => Ok (DPrim (PU128 0))","floats are refused (C75)","Props_Foreign")
m("FO4","Serde","visit_map_or_bits","if str_eqb k bitvec_key then","if false then","the reserved key gives bits (C75)","Props_Foreign")
m("FO5","Serde","visit_map_or_bits","Ok (DComposite (Named ((k, v) :: vs)))","Ok (DComposite (Named (vs ++ [(k, v)])))","the first entry of a map stays first (C75)","Props_Foreign")
m("FO6","Serde","visit_prim","| VBytes b => if Nat.eqb (length b) 32 then Ok (PU256 b) else Err DType","| VBytes b => if Nat.leb (length b) 32 then Ok (PU256 b) else Err DType","a primitive is read from 32 bytes only (C75)","Props_Foreign")
m("FO7","Serde","visit_prim","if Nat.eqb (length b) 32 then Ok (PU256 (map Z.to_N b)) else Err DLength","Ok (PU256 (map Z.to_N b))","a primitive is read from lists of 32 bytes only (C75)","Props_Foreign")
m("FO8","Serde","visit_prim","| VInt true _ z => Ok (PI128 z)","| VInt true _ z => Ok (PU128 (Z.to_N z))","negative numbers are kept (C75)","Props_Foreign")
m("FO9","Serde","variant_fields","else Err DUnknown","else variant_fields rec l' name vals","other keys are refused (C75)","Props_Foreign Props_Parts")
m("FO10","Serde","first_ok_type","if in_int sg w z then SInt sg w z","if in_int sg w z then SInt (negb sg) w z","integers are written with their sign (C75)","Props_Foreign Props_Serde")
m("AL1","Alloc","l_unnamed","reserve remaining (lbind (l_items dec ts bs)","id (lbind (l_items dec ts bs)","the plain decoder reserves room for a list before reading it (C73)","Props_Alloc")
m("AL2","Alloc","l_composite","reserve (N.of_nat (length fs))\n","reserve (N.of_nat (length fs) + 1)\n","exactly the room needed (C73)","Props_Alloc")
m("AL3","Alloc","lt_unnamed_composite","if MAX_CAPACITY <? remaining then quiet (Err (FromDecode CCapacity)) else reserve remaining (lt_unnamed 0 [] ts bs)","reserve remaining (if MAX_CAPACITY <? remaining then quiet (Err (FromDecode CCapacity)) else lt_unnamed 0 [] ts bs)","the check precedes the reservation (C73)","Props_Alloc")
m("AL4","Alloc","lt_composite","reserve (N.of_nat (length fs)) (lt_named [] fs bs)","lt_named [] fs bs","named fields reserve (C73)","Props_Alloc")
m("AL5","Alloc","lbind","| Err e => (Err e, snd m)","| Err e => (Err e, [])","what was reserved before an error counts (C73)","Props_Alloc")
m("AL6","Alloc","ldecode","else l_unnamed (ldecode f compact) t (N.of_nat (length ts)) ts bs","else l_unnamed (ldecode f compact) t 0 ts bs","tuples reserve their length (C73)","Props_Alloc")
m("XL1","Registry","x_len","then 64%N else 32%N","then 32%N else 32%N","where lengths are read as u64, long lengths are accepted (C24_long_refuted, C21)","Props_Decode Props_Encode")
json.dump(M,open('/tmp/gen/mu6.json','w'),indent=1)
