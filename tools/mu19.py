import json
M=[]
def m(i,f,d,o,n,c,t): M.append(dict(id=i,file=f,definition=d,old=o,new=n,claim=c,targets=t.split()))
P="Props_Growth"
m("GR1","Decode","decode","match find (fun v => vi_index v =? idx) vs with","match nth_error vs (N.to_nat idx) with","variants are found by index, not by place (C100)",P)
m("GR2","Decode","decode","match find (fun v => vi_index v =? idx) vs with","match find (fun v => (vi_index v =? idx) || (length vs =? 1)%nat) vs with","an unknown index is refused even in an enum of one variant (C100)",P)
m("GR3","Encode","encode_variant","(vi_fields v) (out ++ [vi_index v])","(vi_fields v) (out ++ [vi_index v + N.of_nat (length vs) - 1])","the index written is that of the variant (C100)",P)
m("GR4","Encode","find_single","        | ResTy (TArray t' n) => if n =? 1","        | ResTy (TVariant [v]) => match vi_fields v with [fd] => find_single f (snd fd) true | _ => Some (t, changed) end\n        | ResTy (TArray t' n) => if n =? 1","enums are not looked through (C100)",P)
m("GR5","Encode","encode_variant","              | None => (SErr XNoVariant, out)\n              | Some v","              | None => match vs with [v] => encode_fields (source_fields (composite_map snd c)) (vi_fields v) (out ++ [vi_index v]) | _ => (SErr XNoVariant, out) end\n              | Some v","an unknown variant is refused even if there is only one (C100)",P)
m("GR6","Encode","encode_variant","match find (fun v => str_eqb (vi_name v) name) vs with","match find (fun v => (length (vi_fields v) =? clen c)%nat) vs with","variants are found by name (C100)",P)
m("GR7","Decode","decode","                     | None => Err EVariantNotFound","                     | None => Err ENotEnough","what the old registry says about new data (C100)",P)
m("GR8","Encode","do_encode","      | _ => match values c with [x] => snd x t out | _ => (SErr XWrongShape, out) end\n      end.","      | ResTy (TVariant [_]) => (SErr XWrongShape, out)\n      | _ => match values c with [x] => snd x t out | _ => (SErr XWrongShape, out) end\n      end.","errors do not depend on how many variants there are (C100)",P)
json.dump(M,open('/tmp/gen/mu19.json','w'))
T="/verif/rocq/theories/"
for x in M:
    s=open(T+x['file']+'.v').read()
    if s.count(x['old'])!=1: print(x['id'],s.count(x['old']))
