import json
M=[]
def m(i,f,d,o,n,c,t): M.append(dict(id=i,file=f,definition=d,old=o,new=n,claim=c,targets=t.split()))
P="Props_Incomplete"
m("MI1","Parse","parse_char","| [] => (Err (Some (e_at_one ECharEscape (offset t2))), t2)","| [] => (Err (Some (e_at_one ECharEscape (offset t1))), t2)","a char that ends in the backslash is reported at the end (C104)",P)
m("MI2","Parse","string_loop","(Err (Some (e_at_one (EStrClose start) (offset t))), t)","(Err (Some (e_at_one (EStrClose start) start)), t)","an unclosed string is reported at the end (C104)",P)
m("MI3","Parse","parse_number","(Err (Some (e_between ENumDigit end_loc (end_loc + 1))), t3)","(Err (Some (e_between ENumDigit start_loc (end_loc + 1))), t3)","a lone sign is reported behind the sign (C104)",P)
m("MI4","Parse","parse_bit_sequence","(Err (Some (e_between (EBitsClose start) (offset t3) (offset t3 + 1))), t3)","(Err (Some (e_between (EBitsClose start) start (offset t3 + 1))), t3)","an unclosed bit sequence is reported at the end (C104)",P)
m("MI5","Parse","parse_delimited","(Err (Some (e_at_one (ECloser cl start) (offset t6))), t6)","(Err (Some (e_at_one (ECloser cl start) start)), t6)","an unclosed composite is reported at the end (C104)",P)
m("MI6","Parse","string_loop","(Err (Some (e_between EStrEscape (offset t) (offset t + 1))), t')","(Err (Some (e_between EStrEscape (offset t') (offset t + 1))), t')","a wrong escape code in a string is not reported at the end (C104)",P)
m("MI7","Parse","parse_number","| None => (Err (Some (e_between ENumFailed start_loc end_loc)), t3)\n      end\n    else","| None => (Err (Some (e_between ENumFailed end_loc end_loc)), t3)\n      end\n    else","a number out of range stays refused at the same place (C104)",P)
m("MI8","Parse","parse_variant","| (None, t3) => (Err None, t3)\n          end\n      | (_, t1) => (Err None, t1)","| (None, t3) => (Err (Some (e_at EExpectedValue (offset t3))), t3)\n          end\n      | (_, t1) => (Err None, t1)","a variant without values is reported at its start (C104)",P)
m("MI9","Parse","parse_field_name_and_value","if negb ok then (Err (e_at_one (EMissingSep c_colon) (offset t2)), t2) else","if negb ok then (Err (e_at_one (EMissingSep c_colon) (offset t1)), t2) else","a field without its colon is reported where the colon should be (C104)",P)
m("MI10","Parse","parse_string","if negb ok then (Err None, t1) else string_loop start t1 [] false.","if negb ok then (Err None, t1) else match string_loop start t1 [] false with (Err (Some e), t2) => (Err None, t2) | x => x end.","an unclosed string is reported at the end (C104)",P)
json.dump(M,open('/tmp/gen/mu23.json','w'))
T="/verif/rocq/theories/"
for x in M:
    s=open(T+x['file']+'.v').read()
    if s.count(x['old'])!=1: print(x['id'],s.count(x['old']))
