import json
M=[]
def m(i,f,d,o,n,c,t): M.append(dict(id=i,file=f,definition=d,old=o,new=n,claim=c,targets=t.split()))
P="Props_EditText"
m("MX1","Fmt","fmt_char","(andthen (fmt_escaped c) (write_char c_squote)).","(andthen (if c =? 39 then write_char c else fmt_escaped c) (write_char c_squote)).","the displayed text of a part that is a char stands in its place and reads back (C107)",P)
m("MX2","Fmt","fmt_int","else write_str (show_N (Z.abs_N z)).","else write_str (show_N (Z.abs_N (z mod 2 ^ 64)%Z)).","what stays of the text keeps its bytes (C107): large positive signed numbers lose digits",P)
m("MX3","Fmt","is_ident","forallb (fun c => is_alphanumeric U c || (c =? c_under)) s'","forallb (fun c => is_alphanumeric U c || (c =? c_under) || (c =? 45)) s'","a displayed name is read back (C107): names with a hyphen are printed bare",P)
m("MX4","Encode","encode_primitive","    | PU128 n => encode_number (Z.of_N n)","    | PU128 n => if n <? 2 ^ 64 then encode_number (Z.of_N n) else encode_number (Z.of_N n mod 2 ^ 64)%Z","what is read from the text encodes to the bytes of what was printed (C107): large numbers read back unsigned lose their high half",P)
m("MX5","Encode","encode_variant","encode_fields (source_fields (composite_map snd c)) (vi_fields v) (out ++ [vi_index v])","encode_fields (source_fields (composite_map snd c)) (vi_fields v) (out ++ [N.of_nat (length (vi_fields v))])","the bytes around the edited part stay (C107): another index byte",P)
m("MX6","Parse","parse_value","                     omap vchar parse_char;","                     omap (fun c => vchar (if c =? 0 then 48 else c)) parse_char;","what is put into the text is what is encoded, and what stays stays (C107): the null char reads as a digit",P)
m("MX7","Encode","encode_by_name","                  | Some e => andthen (e (snd fd) out) (fun out' => encode_by_name src fs' out')","                  | Some e => andthen (e (snd fd) []) (fun out' => encode_by_name src fs' out')","the bytes around the edited part stay (C107): fields before it are dropped",P)
json.dump(M,open('/tmp/gen/mu25.json','w'))
T="/verif/rocq/theories/"
for x in M:
    s=open(T+x['file']+'.v').read()
    if s.count(x['old'])!=1: print(x['id'],s.count(x['old']))
