import json
M=[]
def m(i,f,d,o,n,c,t): M.append(dict(id=i,file=f,definition=d,old=o,new=n,claim=c,targets=t.split()))
P="Props_Splice"; Q="Props_EditAny"
m("MS1","Fmt","fmt_field","(andthen (write_char c_colon) (andthen space (fv (snd kv)))).","(andthen (write_char c_colon) (match snd kv with Val (DComposite _) _ => fv (snd kv) | _ => andthen space (fv (snd kv)) end)).","what stands around a part does not depend on the part (C105)",P)
m("MS2","Fmt","fmt_items","(seqs (map (fun x => andthen (write_str (s2l \",\")) (andthen item_separator (item x))) l'))","(seqs (map (fun x => andthen (write_str (s2l \",\")) (andthen (match l' with [_] => ret | _ => item_separator end) (item x))) l'))","items are separated in the same way whatever they are (C105; only the number of items matters here, so the text of the whole is still made of the parts' texts: the formatter layout C59 is what breaks)",P)
m("MS3","Fmt","fmt_string","(andthen (seqs (map fmt_escaped s)) (write_char c_dquote)).","(andthen (seqs (map (fun c => if c =? 34 then write_char c else fmt_escaped c) s)) (write_char c_dquote)).","a displayed string is safe anywhere in a text (C105)",P)
m("MS4","Fmt","fmt_char","(andthen (fmt_escaped c) (write_char c_squote)).","(andthen (if c =? 92 then write_char c else fmt_escaped c) (write_char c_squote)).","a displayed char is safe anywhere in a text (C105)",P)
m("MS5","Value","at_composite","      | Unnamed l => nth_error l n","      | Unnamed l => nth_error (rev l) n","the part at a position is the one replaced (C105)",P)
m("MS6","Value","at_value","  | DVariant _ c => at_composite c loc","  | DVariant _ c => match loc with LIdx (S n) => at_composite c (LIdx n) | _ => at_composite c loc end","the part at a position is the one replaced (C105)",P)
m("MS7","Parse","parse_number","      if plus then (true, t1)","      if plus && (start_loc =? 0) then (true, t1)","any text of a value can stand in the place of a part (C105)",P)
m("MS8","Parse","string_loop","        else if c =? c_dquote then (Ok (rev acc), t')","        else if c =? c_dquote then (match acc with [] => if start =? 0 then (Ok (rev acc), t') else (Err None, t') | _ => (Ok (rev acc), t') end)","any text of a value can stand in the place of a part (C105)",P)
m("ME1","Encode","encode_struct","        | ResTy (TComposite fs) => match src with [(None, e)] => e t1 out | _ => encode_fields src fs out end","        | ResTy (TComposite fs) => encode_fields src fs out","what can be encoded as a part can be encoded in its place (C106)",Q)
m("ME2","Encode","do_encode","      | ResTy (TSequence t') => encode_all (map snd (values c)) t' (out ++ compact_encode (N.of_nat (clen c) mod 2 ^ 32))","      | ResTy (TSequence t') => match values c with [(Val (DComposite _) _, e)] => e t out | _ => encode_all (map snd (values c)) t' (out ++ compact_encode (N.of_nat (clen c) mod 2 ^ 32)) end","what stands around a part does not depend on the part (C106)",Q)
m("ME3","Encode","encode_fields","    if existsb named_field fs && existsb named_field src then encode_by_name src fs out","    if forallb named_field fs && existsb named_field src && (length fs =? length src)%nat && negb (length fs =? 3)%nat then encode_by_name src fs out","the bytes around a part stay (C106): fields by position for structs of three fields",Q)
m("ME4","Encode","encode_by_name","Some e => andthen (e (snd fd) out) (fun out' => encode_by_name src fs' out')","Some e => match e (snd fd) out with (SErr _, _) => encode_by_name src fs' out | r => andthen r (fun out' => encode_by_name src fs' out') end","what is read back has the new part in its place (C106): a field that fails is skipped",Q)
json.dump(M,open('/tmp/gen/mu24.json','w'))
T="/verif/rocq/theories/"
for x in M:
    s=open(T+x['file']+'.v').read()
    if s.count(x['old'])!=1: print(x['id'],s.count(x['old']))
