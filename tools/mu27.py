import json
M=[]
def m(i,f,d,o,n,c,t="Props_Json"): M.append(dict(id=i,file=f,definition=d,old=o,new=n,claim=c,targets=t.split()))
J="Props_Json"; R="Props_Rearranged"; B="Props_Json Props_Rearranged"
m("MZ1","Serde","ser_prim","  | PI128 z => first_ok_type true [8; 16; 32; 64; 128]%N z","  | PI128 z => first_ok_type false [8; 16; 32; 64; 128]%N z","negative integers survive JSON (C109): written as unsigned",B)
m("MZ2","Serde","ser_bits","Definition ser_bits (b : list bool) : sd := SMap [(SStr bitvec_key, SSeq (map SBool b))].","Definition ser_bits (b : list bool) : sd := SMap [(SStr bitvec_key, SSeq (map SBool (rev b)))].","bit sequences survive JSON (C109): bits written backwards",B)
m("MZ3","Serde","ser_composite_with","  | Unnamed l => SSeq (map f l)","  | Unnamed [x] => f x\n  | Unnamed l => SSeq (map f l)","lists survive JSON (C109): a list of one is written without the brackets",B)
m("MZ4","Serde","ser_variant_with","  SMap [(SStr (s2l \"name\"), SStr n); (SStr (s2l \"values\"), ser_composite_with f c)].","  SMap [(SStr (s2l \"name\"), SStr n); (SStr (s2l \"fields\"), ser_composite_with f c)].","a Variant is read from its JSON (C109): another key",J)
m("MZ5","Serde","visit_map_or_bits","          rmap DBits (bind (deserialize s HSeq) (visit_vec de_bool))","          rmap (fun b => DBits (rev b)) (bind (deserialize s HSeq) (visit_vec de_bool))","bit sequences survive JSON (C109): bits read backwards",B)
m("MZ6","Encode","encode_fields","    if existsb named_field fs && existsb named_field src then encode_by_name src fs out","    if existsb named_field fs && existsb named_field src && negb (length fs =? length src)%nat then encode_by_name src fs out","named fields in any order (C110): with the right number of entries they are taken in order",R)
m("MZ7","Encode","encode_variant","              | Some v => encode_fields (source_fields (composite_map snd c)) (vi_fields v) (out ++ [vi_index v])","              | Some v => encode_fields (map (fun x => (None, snd x)) (source_fields (composite_map snd c))) (vi_fields v) (out ++ [vi_index v])","named fields of variants in any order (C110): variant fields are taken in order",R)
m("MZ8","Encode","encode_struct","        | ResTy (TComposite fs) => match src with [(None, e)] => e t1 out | _ => encode_fields src fs out end","        | ResTy (TComposite fs) => match src with [(None, e)] => e t1 out | (Some k, e) :: _ => match fs with (Some k', _) :: _ => if str_eqb k k' then encode_in_order (map snd src) (map snd fs) out else encode_fields src fs out | _ => encode_fields src fs out end | _ => encode_fields src fs out end","named fields in any order (C110): if the first is in its place the others are taken in order",R)
m("MZ9","Encode","bit_of","          | Some n => if (n =? 0) || (n =? 1) then Some (n =? 1) else None","          | Some n => if (n =? 0) || (n =? 1) then Some (n =? 0) else None","bit sequences as lists of 0 and 1 (C110): the numbers are taken the wrong way round",R)
m("MZ10","Encode","bit_of","                    | Some z => if ((z =? 0) || (z =? 1))%Z then Some (z =? 1)%Z else None","                    | Some z => None","bit sequences as lists of 0 and 1 (C110): signed numbers are not taken as bits",R)
m("MZ11","Encode","encode_primitive","    | PI128 z => encode_number z","    | PI128 z => if (z <? 0)%Z then encode_number z else (fun t out => (SErr XWrongShape, out))","integers of the other sign encode (C110): positive signed ones are refused",R)
m("MZ12","Encode","lookup_last","    | f :: src' => match lookup_last name src' with\n                   | Some e => Some e\n                   | None => if str_eqb (key_of f) name then Some (snd f) else None\n                   end","    | f :: src' => if str_eqb (key_of f) name then Some (snd f) else match src' with [] => None | _ :: src'' => lookup_last name src'' end","named fields in any order (C110): every other entry is skipped in the search",R)
m("MZ13","Serde","visit_map_or_bits","          Ok (DComposite (Named ((k, v) :: vs)))))","          Ok (DComposite (Named (vs ++ [(k, v)])))))","what is read from JSON is the value (C109): the first entry is put last","Props_Json")
m("MZ14","Serde","visit_prim","    | VInt true _ z => Ok (PI128 z)","    | VInt true _ z => Ok (PU128 (Z.to_N (- z)))","negative integers survive JSON (C109): the sign is lost",B)
json.dump(M,open('/tmp/gen/mu27.json','w'))
T="/verif/rocq/theories/"
for x in M:
    s=open(T+x['file']+'.v').read()
    if s.count(x['old'])!=1: print(x['id'],s.count(x['old']))
