import json
M=[]
def m(i,f,d,o,n,c,t): M.append(dict(id=i,file=f,definition=d,old=o,new=n,claim=c,targets=t.split()))
P="Props_Streams"
m("ST1","Scale","take","if (length bs <? k)%nat then Err ENotEnough else Ok (firstn k bs, skipn k bs)","Ok (firstn k bs, skipn k bs)","input that ends too early is refused (C101)",P)
m("ST2","Scale","compact_decode","  | [] => Err ECodec\n  | p :: r =>","  | [] => Ok (0, [])\n  | p :: r =>","a missing length is not zero (C101)",P)
m("ST3","Decode","decode","                 | [] => Err ENotEnough\n                 | idx","                 | [] => Err EVariantNotFound\n                 | idx","a missing variant index is reported as missing input (C101)",P)
m("ST4","Trace","trace","                 | [] => Err (FromDecode (CDecode ENotEnough))\n","                 | [] => Err (FromDecode (CDecode EVariantNotFound))\n","a missing variant index is reported as missing input by the tracing decoder (C101)",P)
m("ST5","Scale","read_prim","bind (compact_decode lenbits bs) (fun x => bind (take (N.to_nat (fst x)) (snd x)) (fun y =>","bind (compact_decode lenbits bs) (fun x => bind (if (length (snd x) <? N.to_nat (fst x))%nat then Err EInvalidStr else take (N.to_nat (fst x)) (snd x)) (fun y =>","a string cut short is reported as missing input (C101)",P)
m("ST6","Scale","decode_bits","    if maxbits <? fst x then Err EBits","    if (maxbits <? fst x) || (length (snd x) <? words_for st len * bsbytes st)%nat then Err EBits","bits cut short are reported as missing input (C101)",P)
m("ST7","Scale","read_prim","| PtU256 => bind (take 32 bs)","| PtU256 => bind (if (length bs <? 32)%nat then Ok (bs ++ repeat 0 (32 - length bs), []) else take 32 bs)","a number cut short is refused (C101)",P)
m("ST8","Decode","decode","bind (compact_decode (x_len X) bs) (fun x => to_unnamed (decode f false) t (repeat t' (N.to_nat (fst x))) (snd x))","bind (compact_decode (x_len X) bs) (fun x => to_unnamed (decode f false) t (repeat t' (Nat.min (length (snd x)) (N.to_nat (fst x)))) (snd x))","a sequence cut short is refused (C101)",P)
m("ST9","Trace","unnamed_loop","          match item (path ++ [SIndex idx]) t bs with","          match item (path ++ [SIndex (length bs)]) t bs with","where the tracing decoder stopped does not depend on what follows (C101)",P)
m("ST10","Decode","visit_composite","else bind (decode_items dec (map snd fs) bs) (fun x => Ok (Unnamed (fst x), snd x)).","else bind (decode_items dec (map snd fs) bs) (fun x => Ok (Unnamed (fst x), match fs with [] => [] | _ => snd x end)).","reading an empty struct leaves the rest of the stream (C101)",P)
m("ST11","Encode","encode_variant","(vi_fields v) (out ++ [vi_index v])","(vi_fields v) (match out with [] => [vi_index v] | _ => [vi_index v] ++ out end)","values are put behind what is there (C101)",P)
m("ST12","Parse","from_str","parse_custom U [] s","(let (r, rest) := parse_custom U [] s in (r, match rest with 10 :: rest' => rest' | _ => rest end))","the line end is left in the text (C101)",P)
json.dump(M,open('/tmp/gen/mu20.json','w'))
T="/verif/rocq/theories/"
for x in M:
    s=open(T+x['file']+'.v').read()
    if s.count(x['old'])!=1: print(x['id'],s.count(x['old']))
