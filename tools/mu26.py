import json
M=[]
def m(i,f,d,o,n,c,t="Props_Ident"): M.append(dict(id=i,file=f,definition=d,old=o,new=n,claim=c,targets=t.split()))
P="Props_Ident"
m("MY1","Fmt","fmt_bitsequence","(andthen (seqs (map (fun x : bool => write_char (if x then c_1 else c_0)) b)) (write_char c_gt)).","(andthen (seqs (map (fun x : bool => write_char (if x then c_1 else c_0)) (removelast b))) (write_char c_gt)).","equal texts mean equal values (C108): the last bit is not written")
m("MY2","Fmt","fmt_int","if (z <? 0)%Z then andthen (write_char c_minus) (write_str (show_N (Z.abs_N z)))","if (z <? -1)%Z then andthen (write_char c_minus) (write_str (show_N (Z.abs_N z)))","equal texts mean equal values (C108): -1 and 1 print alike")
m("MY3","Fmt","fmt_composite","    | Named [] => write_str (s2l \"{}\")","    | Named [] => write_str (s2l \"()\")","equal texts mean equal values (C108): the two empty composites print alike")
m("MY4","Chars","to_escape_code","  else if c =? 9 then Some 116 (* t *)","  else if c =? 9 then Some 110 (* t *)","equal texts mean equal values (C108): tabs are written as newlines")
m("MY5","Decode","decode","match find (fun v => vi_index v =? idx) vs with","match find (fun v => vi_index v mod 128 =? idx mod 128) vs with","decoded values with equal texts were read from the same bytes (C108): the top bit of the index is ignored")
m("MY6","Scale","read_prim","if b =? 0 then Ok (PBool false, r) else if b =? 1 then Ok (PBool true, r) else Err ECodec","if b =? 0 then Ok (PBool false, r) else Ok (PBool true, r)","decoded values with equal texts were read from the same bytes (C108): any nonzero byte is true")
m("MY7","Scale","compact_decode","      let chk lo n rest := if (lo <=? n) && (n <? 2 ^ w) then","      let chk lo n rest := if (n <? 2 ^ w) then","decoded values with equal texts were read from equally many bytes (C108): long forms of small numbers are accepted")
m("MY8","Encode","encode_primitive","    | PI128 z => encode_number z","    | PI128 z => if (z =? 0)%Z then encode_bool false else encode_number z","values with equal texts encode alike (C108): the signed zero encodes as a bool, the unsigned one does not")
m("MY9","Fmt","fmt_composite","    | Unnamed l =>\n        andthen (write_char c_lpar) (andthen indent_step","    | Unnamed [v1] => fv v1\n    | Unnamed l =>\n        andthen (write_char c_lpar) (andthen indent_step","equal texts mean equal values (C108): a sequence of one element prints like the element")
m("MY10","Fmt","fmt_char","(andthen (write_char c_squote) (andthen (fmt_escaped c) (write_char c_squote)))" if False else "andthen (write_char c_squote) (andthen (fmt_escaped c) (write_char c_squote)).","andthen (write_char c_dquote) (andthen (fmt_escaped c) (write_char c_dquote)).","equal texts mean equal values (C108): a char prints like the string of it")
for x in M: pass
json.dump(M,open('/tmp/gen/mu26.json','w'))
T="/verif/rocq/theories/"
for x in M:
    s=open(T+x['file']+'.v').read()
    if s.count(x['old'])!=1: print(x['id'],s.count(x['old']))
