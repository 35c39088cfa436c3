import json
M=[]
def m(i,f,d,o,n,c,t): M.append(dict(id=i,file=f,definition=d,old=o,new=n,claim=c,targets=t.split()))
P="Props_Migrate"
m("MG1","Encode","encode_fields","if existsb named_field fs && existsb named_field src then encode_by_name src fs out","if existsb named_field fs && existsb named_field src && (length fs =? length src)%nat then encode_by_name src fs out","fields may be left out (C103)",P)
m("MG2","Encode","encode_fields","if existsb named_field fs && existsb named_field src then","if false then","fields go by their names (C103)",P)
m("MG3","Encode","encode_variant","find (fun v => str_eqb (vi_name v) name) vs","find (fun v => str_eqb (vi_name v) name) (firstn 1 vs)","every variant finds its name (C103)",P)
m("MG4","Encode","encode_number","| ResTy (TCompact t2) =>\n            match find_single F t2 false with","| ResTy (TCompact t2) =>\n            match Some (t2, false) with","compact of a wrapped integer takes integers (C103)",P)
m("MG5","Encode","do_encode","if N.of_nat (clen c) =? n then encode_all (map snd (values c)) t' out","if N.of_nat (clen c) <? n then encode_all (map snd (values c)) t' out","arrays of the right length are accepted (C103)",P)
m("MG6","Encode","encode_struct","ResTy (TComposite fs) => match src with [(None, e)] => e t1 out |","ResTy (TComposite fs) => match src with [(_, e)] => e t1 out |","a struct with one named field keeps its field (C103)",P)
m("MG7","Encode","encode_struct","| _ => match src with [(_, e)] => e t1 out | _ => (SErr XWrongShape, out) end","| _ => (SErr XWrongShape, out)","the content of a newtype goes into newtypes (C103)",P)
json.dump(M,open('/tmp/gen/mu22.json','w'))
T="/verif/rocq/theories/"
for x in M:
    s=open(T+x['file']+'.v').read()
    if s.count(x['old'])!=1: print(x['id'],s.count(x['old']))
