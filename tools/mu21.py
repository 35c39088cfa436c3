import json
M=[]
def m(i,f,d,o,n,c,t): M.append(dict(id=i,file=f,definition=d,old=o,new=n,claim=c,targets=t.split()))
P="Props_Edit"
m("ED1","Decode","decode","to_unnamed (decode f false) t (repeat t' (N.to_nat (fst x))) (snd x))","to_unnamed (decode f false) t' (repeat t' (N.to_nat (fst x))) (snd x))","a part carries the id of the type of its place (C102)",P)
m("ED2","Encode","do_encode","(out ++ compact_encode (N.of_nat (clen c) mod 2 ^ 32))","(out ++ compact_encode (N.of_nat (clen c) mod 2 ^ 30))","the length in front of a sequence (C102)",P)
m("ED3","Decode","decode","to_unnamed (decode f false) t (repeat t' (N.to_nat n)) bs","to_unnamed (decode f false) t (rev (repeat t' (N.to_nat n))) (firstn (N.to_nat n) bs)","what is behind an array stays (C102)",P)
m("ED4","Encode","encode_variant","(vi_fields v) (out ++ [vi_index v])","(rev (vi_fields v)) (out ++ [vi_index v])","the fields of a variant keep their stretches in order (C102)",P)
m("ED5","Decode","decode_items","Ok (fst x :: fst y, snd y)))\n    end.\n\n  (** decode.rs:369","Ok (fst y ++ [fst x], snd y)))\n    end.\n\n  (** decode.rs:369","elements are in the order of their bytes (C102)",P)
m("ED6","Decode","decode_named","Ok ((match name with Some n => n | None => [] end, fst x) :: fst y, snd y)","Ok (fst y ++ [(match name with Some n => n | None => [] end, fst x)], snd y)","fields are in the order of their bytes (C102)",P)
json.dump(M,open('/tmp/gen/mu21.json','w'))
T="/verif/rocq/theories/"
for x in M:
    s=open(T+x['file']+'.v').read()
    if s.count(x['old'])!=1: print(x['id'],s.count(x['old']))
