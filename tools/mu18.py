import json
M=[]
def m(i,f,d,o,n,c,t): M.append(dict(id=i,file=f,definition=d,old=o,new=n,claim=c,targets=t.split()))
P="Props_Panics"
m("PN1","Panics","visit_composite_p","if (0 <? length fs)%nat && negb (has_unnamed fs)","if (0 <? length fs)%nat","decoding never unwraps a missing name (C99)",P)
m("PN2","Panics","decode_named_p","decode_named_p dec (peek_name fs') fs' (snd x)","decode_named_p dec (peek_name (tl fs')) fs' (snd x)","the name peeked is that of the next field (C99)",P)
m("PN3","Panics","find_single_p","if (length fs =? 1)%nat then","if (length fs <=? 1)%nat then","no unwrapping of a missing field (C99)",P)
m("PN4","Panics","find_single_p","if (length ts =? 1)%nat then rbind","if (length ts <? 2)%nat then rbind","no unwrapping of a missing field (C99)",P)
m("PN5","Panics","deserialize_option_p","if str_eqb n (s2l \"Some\") && Nat.eqb (length vs) 1","if str_eqb n (s2l \"Some\")","no popping from nothing (C99)",P)
m("PN6","Panics","visit_composite_p","negb (has_unnamed fs)","is_some (peek_name fs)","all fields are looked at, not only the first (C99)",P)
m("PN8","Panics","shift_err_p","(usize_add bits start_offset (start_loc e))","(usize_add bits start_offset (start_offset + start_loc e))","offsets are added once (C99)",P)
json.dump(M,open('/tmp/gen/mu18.json','w'))
T="/verif/rocq/theories/"
for x in M:
    s=open(T+x['file']+'.v').read()
    if s.count(x['old'])!=1: print(x['id'],s.count(x['old']))
