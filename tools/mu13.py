import json
M=[]
def m(id,file,d,old,new,claim,targets): M.append(dict(id=id,file=file,definition=d,old=old,new=new,claim=claim,targets=targets.split()))
P="Props_Memory"
m("MS1","ParseState","mrun","| (m', (None, cur)) => mrun ps' m' cur","| (m', (None, cur)) => mrun ps' m cur","what a declining parser remembers stays",P)
m("MS2","ParseState","mone_of","| (m', (Err None, _)) => mone_of alts' m' t","| (m', (Err None, _)) => mone_of alts' m t","what was remembered while an alternative was tried stays (no alternative is given up after asking: equivalent)",P)
m("MS3","ParseState","mbuiltin","momap (fun c => without_context (DComposite c)) (munnamed fuel);\n","momap (fun c => without_context (DComposite c)) (munnamed fuel); momap (fun c => without_context (DComposite c)) (munnamed fuel);\n","an alternative is not tried twice (the first answers: equivalent)",P)
m("MS4","ParseState","msep_rest","| (m', (Err e, _)) => (m', (Err e, t))\n          | (m', (Ok a, t2)) => msep_rest","| (m', (Err e, _)) => (m, (Err e, t))\n          | (m', (Ok a, t2)) => msep_rest","memory is not rolled back on errors",P)
m("MS5","ParseState","msep_rest","match item m t1 with","match item (fst (item m t1)) t1 with","an item is asked for once",P)
m("MS6","ParseState","msep_rest","if negb ok then (m, (Ok (rev acc), t))","if negb ok then (fst (item m t1), (Ok (rev acc), t))","nothing is asked behind the last item",P)
m("MS7","ParseState","mdelimited","if ok then (m, (Ok [], t3)) else\n      match msep_by","if false then (m, (Ok [], t3)) else\n      match msep_by","an empty list asks nothing",P)
m("MS8","ParseState","mvariant","match mone_of [mnamed fuel; munnamed fuel] m t2 with","match mone_of [munnamed fuel; mnamed fuel] m t2 with","order of alternatives (exclusive: equivalent up to the proof)",P)
m("MS9","ParseState","mparse_value","| (m', None) => mbuiltin (mparse_value ps k) k m' t","| (m', None) => mbuiltin (mparse_value ps k) k m t","what was remembered when declining stays",P)
m("MS10","ParseState","mparse_value","| (m', Some (Err e, _)) =>","| (m', Some (Err e, cur)) => mbuiltin (mparse_value ps k) k m' t\n        | (m', Some (Err e, _)) =>","an error of a custom parser ends parsing",P)
m("MS11","ParseState","mfield","match pv m t2 with","match pv (fst (pv m t)) t2 with","no value is asked for at a field name",P)
for x in M:
    s=open('/verif/rocq/theories/%s.v'%x['file']).read()
    if s.count(x['old'])!=1: print("BAD",x['id'],s.count(x['old']))
json.dump(M,open('/tmp/gen/mu13.json','w'),indent=1)
