import json
M=[]
def m(id,file,d,old,new,claim,targets): M.append(dict(id=id,file=file,definition=d,old=old,new=new,claim=claim,targets=targets.split()))
P="Props_ToValue Props_Convert"
S="Serde"
m("TV1",S,"key_of","| DPrim (PChar c) => Ok [c]\n","","char keys are written (C94)",P)
m("TV2",S,"to_value_sd","| SInt true _ z => Ok (vi128 z) ","| SInt true _ z => Ok (if (0 <=? z)%Z then vu128 (Z.to_N z) else vi128 z) ","signed integers keep their sign kind (C94)",P)
m("TV3",S,"to_value_sd","| SBytes b => Ok (unnamed_composite (map vu128 b)) ","| SBytes b => Ok (unnamed_composite (map vu128 (rev b))) ","bytes in order (C94)",P)
m("TV4",S,"to_value_sd","| SNone => Ok (unnamed_variant (s2l \"None\") [])","| SNone => Ok (unnamed_composite [])","None is a variant (C94)",P)
m("TV5",S,"to_value_sd","(fun v => Ok (unnamed_variant (s2l \"Some\") [v]))","(fun v => Ok v)","Some is a variant (C94)",P)
m("TV6",S,"to_value_sd","| SNewtypeStruct x => bind (to_value_sd x) (fun v => Ok (unnamed_composite [v]))","| SNewtypeStruct x => to_value_sd x","newtypes are composites with one field (C94)",P)
m("TV7",S,"to_value_sd","| SUnitVariant n => Ok (unnamed_variant n [])","| SUnitVariant n => Ok (vstring n)","unit variants are variants (C94)",P)
m("TV8",S,"to_value_sd","| SNewtypeVariant n x => bind (to_value_sd x) (fun v => Ok (unnamed_variant n [v]))","| SNewtypeVariant n x => bind (to_value_sd x) (fun v => Ok (unnamed_variant n [unnamed_composite [v]]))","newtype variants hold the value itself (C94)",P)
m("TV9",S,"to_value_sd","| STupleVariant n l => rmap (unnamed_variant n) (mapM to_value_sd l)","| STupleVariant n l => rmap (unnamed_variant n) (mapM to_value_sd (tl l))","tuple variants keep all fields (C94)",P)
m("TV10",S,"to_value_sd","rmap (named_variant n) (mapM (fun nx","rmap (fun l0 => unnamed_variant n (map snd l0)) (mapM (fun nx","struct variants keep the names (C94)",P)
m("TV11",S,"to_value_sd","bind (to_value_sd x) (fun v => Ok (s, v)))) end) l)","bind (to_value_sd x) (fun v => Ok (s, v)))) end) (rev l))","map entries in order (C94)",P)
m("TV12",S,"first_ok_type","if in_int sg w z then SInt sg w z else first_ok_type sg ws' z","SInt sg w z","each integer with the first width it fits (C72 widths; not visible in to_value)",P+" Props_Texts")
m("TV13",S,"ser_prim","| PI256 b => STuple (map (fun x => SInt false 8 (Z.of_N x)) b)","| PI256 b => STuple (map (fun x => SInt true 8 (Z.of_N x)) b)","256-bit integers are spelt as bytes (C94)",P)
m("TV14",S,"ser_bits","SMap [(SStr bitvec_key, SSeq (map SBool b))]","SMap [(SStr bitvec_key, SSeq (map SBool (rev b)))]","bits in order (C94)",P)
m("TV15",S,"ser_variant_with","[(SStr (s2l \"name\"), SStr n); (SStr (s2l \"values\"), ser_composite_with f c)]","[(SStr (s2l \"values\"), ser_composite_with f c); (SStr (s2l \"name\"), SStr n)]","name before values (C94)",P)
m("TV16",S,"ser_composite_with","| Unnamed l => SSeq (map f l)\n  end.","| Unnamed l => match l with [x] => f x | _ => SSeq (map f l) end\n  end.","one-element composites stay composites (C94)",P)
m("TV17",S,"zip_app","f :: fs', x :: l' => f x :: zip_app fs' l' | _, _ => [] end.\n\nFixpoint zip_named","f :: fs', x :: l' => zip_app fs' l' ++ [f x] | _, _ => [] end.\n\nFixpoint zip_named","tuple fields in order (C94)",P)
m("TV18",S,"zip_named","(n, x) :: l' => (n, f x) :: zip_named fs' l'","(n, x) :: l' => zip_named fs' l' ++ [(n, f x)]","struct fields in order (C94)",P)
m("TV19",S,"ser","| TyOption t' => fun d => match d with XNone => SNone | XSome x => SSome (ser t' x) | _ => SFloat end","| TyOption t' => fun d => match d with XNone => SNone | XSome x => ser t' x | _ => SFloat end","Some is written as Some (C94)",P)
m("TV20",S,"ser","(SChar (hd 0%N (fst kv)), ser t' (snd kv))","(SStr (fst kv), ser t' (snd kv))","(std: a char key is written as a char; the result is the same value: equivalent for to_value)",P)
m("TV21",S,"ser_variant_body","| VsUnit, VsUnit => SUnitVariant n","| VsUnit, VsUnit => SNewtypeVariant n SUnit","unit variants are empty (C94)",P)
m("CV1",S,"map_insert","else if str_eqb k k' then (k', x) :: l'","else if str_eqb k k' then l","the last of equal keys wins (C93, C95)",P+" Props_Reads")
m("CV2",S,"composite_de","if Nat.eqb (clen c) n then Ok (VSeq false (map SrcValue (values c))) else Err DCustom","Ok (VSeq false (map SrcValue (values c)))","tuples need the exact length (C93)",P+" Props_Reads")
m("CV3",S,"missing","TyOption _ => Ok XNone","TyOption _ => Err DMissing","absent optional fields are None (C95)",P)
m("CV4",S,"visit_struct/struct_entries","| None => bind (de_ignored s) (fun _ => struct_entries fs l' acc)","| None => Err DUnknown","unknown fields are ignored (C95)",P)
m("CV5",S,"de","| VsNewtype t' => VsNewtype (de t')","| VsNewtype t' => VsTuple [de t']","newtype variants are read with newtype_variant (C95: newtype variant as struct variant)",P)
json.dump(M,open('/tmp/gen/mu15.json','w'))
T="/verif/rocq/theories/"
for x in M:
    s=open(T+x['file']+'.v').read()
    if s.count(x['old'])!=1: print(x['id'],s.count(x['old']))
