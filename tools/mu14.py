import json
M=[]
def m(id,file,d,old,new,claim,targets): M.append(dict(id=id,file=file,definition=d,old=old,new=new,claim=claim,targets=targets.split()))
P="Props_Reads"
S="Serde"
m("RD1",S,"composite_bytes","if (n <? 256)%N then Ok n else Err DCustom","if (n <=? 256)%N then Ok n else Err DCustom","a byte is a number below 256",P)
m("RD2",S,"composite_de","if Nat.eqb (clen c) n then Ok (VSeq false (map SrcValue (values c))) else Err DCustom","if Nat.leb n (clen c) then Ok (VSeq false (map SrcValue (values c))) else Err DCustom","tuples are read from as many fields",P)
m("RD3",S,"composite_de","| HSeq => Ok (VSeq false (map SrcValue (values c)))","| HSeq => Ok (VSeq false (map SrcValue (rev (values c))))","sequences are read in order",P)
m("RD4",S,"composite_de","if cis_empty c then Ok VUnit else Err DCustom","Ok VUnit","() is read only from composites without fields",P)
m("RD5",S,"composite_de","| HNewtypeStruct => Ok (VSeq false [SrcComposite c])","| HNewtypeStruct => Ok (VSeq false (map SrcValue (values c)))","a newtype is read from the composite itself, not from its field",P)
m("RD6",S,"variant_de","| HTuple _ | HTupleStruct _ | HUnitStruct | HUnit | HStruct | HMap | HSeq => composite_de c h","| HTuple _ | HTupleStruct _ | HUnitStruct | HUnit | HStruct | HMap => composite_de c h","a Vec is read from the fields of a variant",P)
m("RD7",S,"variant_de","HStruct | HMap | HSeq => composite_de c h","HStruct | HMap | HSeq | HBytes => composite_de c h","a byte buffer is not read from a variant",P)
m("RD8",S,"prim_any","| PU256 b => VBytes b","| PU256 b => VSeq false (map (fun n => SrcPrim (PU128 n)) b)","a U256 is seen as bytes",P)
m("RD9",S,"prim_de","| PI128 z => if in_int sg w z then VInt sg w z else prim_any p","| PI128 z => prim_any p","a signed number in range is read as any integer type",P)
m("RD10",S,"bits_de","| HNewtypeStruct | HTuple _","| HTuple _","a bit sequence is never read as a newtype",P)
m("RD11",S,"vdef_de","Nat.eqb (length vs) 0 then Ok VNone","Nat.eqb (length vs) 1 then Ok VNone","None without fields is None",P)
m("RD12",S,"vdef_de","if str_eqb n (s2l \"Some\") && Nat.eqb (length vs) 1\n            then","if Nat.eqb (length vs) 1\n            then","only a variant called Some is Some",P)
m("RD13",S,"vdef_de","| HStruct | HIdentifier | HIgnoredAny => Ok (vdef_any d)","| HIdentifier | HIgnoredAny => Ok (vdef_any d)","a struct is not read from the fields of a variant",P)
m("RD14",S,"visit_int","if (w' =? 128)%N && negb (w =? 128)%N then Err DType\n        else if","if","number types are not converted from out of range 128 bit numbers (the range check rejects them anyway)",P)
m("RD15",S,"visit_char","| VString [c] => Ok c","| VString (c :: _) => Ok c","a char is read from a string of exactly one",P)
m("RD16",S,"visit_string","| VChar c => Ok [c]\n","","a String is read from a char",P)
m("RD17",S,"visit_prim","| VInt true _ z => Ok (PI128 z)","| VInt true _ z => if (0 <=? z)%Z then Ok (PU128 (Z.to_N z)) else Ok (PI128 z)","signed numbers stay signed",P)
m("RD18",S,"struct_entries","| Some _ => Err DDuplicate\n","| Some _ => struct_entries fs l' acc\n","a field given twice is an error",P)
m("RD19",S,"struct_entries","| None => bind (de_ignored s) (fun _ => struct_entries fs l' acc)","| None => Err DUnknown","unknown fields are skipped",P)
m("RD20",S,"missing","match t with TyOption _ => Ok XNone | _ => Err DMissing end","match t with TyOption _ => Ok XNone | TyUnit => Ok XUnit | _ => Err DMissing end","only an absent Option is made up",P)
m("RD21",S,"visit_enum","| Some (VsNewtype f), _ => rmap (fun x => XEnum n (VsNewtype x)) (f (SrcComposite c))","| Some (VsNewtype f), _ => match values c with [v] => rmap (fun x => XEnum n (VsNewtype x)) (f (SrcValue v)) | _ => Err DLength end","a newtype variant is read from the fields as a composite",P)
m("RD22",S,"visit_enum","rmap (fun l => XEnum n (VsStruct l)) (visit_struct fs m (composite_any c))","bind (composite_de c HStruct) (fun e => match e with VSeq _ _ => Err DType | _ => rmap (fun l => XEnum n (VsStruct l)) (visit_struct fs m e) end)","a struct variant is read from unnamed fields too",P)
m("RD23",S,"map_insert","else if str_eqb k k' then (k', x) :: l'","else if str_eqb k k' then (k', x') :: l'","the last of equal keys wins",P)
m("RD24",S,"visit_composite","| VUnit => Ok (Unnamed [])\n    | VSeq","| VUnit => Ok (Named [])\n    | VSeq","(unit is never shown when anything is asked for: equivalent on values)",P)
m("RD25",S,"visit_variant","| VEnum n c => rmap (pair n) (de_composite_with rec (SrcComposite c))","| VEnum n c => rmap (fun c' => (n, Unnamed (values c'))) (de_composite_with rec (SrcComposite c))","field names of a copied variant stay",P)
m("RD26",S,"visit_map_or_bits","| [] => Ok (DComposite (Named []))","| [] => Ok (DComposite (Unnamed []))","an empty named composite stays named",P)
m("RD27",S,"variant_fields","bind (de_string s) (fun n => variant_fields rec l' (Some n) vals)","bind (de_string s) (fun n => variant_fields rec l' (match name with None => Some n | _ => name end) vals)","the last name wins",P)
m("RD28",S,"variant_fields","else Err DUnknown","else variant_fields rec l' name vals","an unknown key is an error",P)
m("RD29",S,"de","| VNone | VUnit => Ok XNone","| VNone => Ok XNone","() as Option is None (an Option from a value: never shown unit: equivalent)",P)
m("RD30",S,"visit_vec","match e with VSeq _ l => mapM f l | _ => Err DType end","match e with VSeq _ l => mapM f l | VUnit => Ok [] | _ => Err DType end","(unit never shown for a Vec: equivalent)",P)
m("MS1b","ParseState","mrun","| (m', (None, cur)) => mrun ps' m' cur","| (m', (None, cur)) => mrun ps' m cur","what a declining parser remembers stays","Props_Memory")
m("MS12","ParseState","mrun","| (m', (None, cur)) => mrun ps' m' cur","| (m', (None, cur)) => mrun ps' m' cursor","a declining parser hands on the cursor as it leaves it","Props_Memory")
for x in M:
    s=open('/verif/rocq/theories/%s.v'%x['file']).read()
    if s.count(x['old'])!=1: print("BAD",x['id'],s.count(x['old']))
json.dump(M,open('/tmp/gen/mu14.json','w'),indent=1)
