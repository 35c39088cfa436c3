import json
M=[]
def m(id,file,d,old,new,claim,targets): M.append(dict(id=id,file=file,definition=d,old=old,new=new,claim=claim,targets=targets.split()))
for x in json.load(open('/tmp/gen/mu8.json')):
    t={"X47":"Props_Texts","X54":"Props_Texts","X56":"Props_Layout","X57":"Props_Texts","X58":"Props_Texts","X59":"Props_Texts"}.get(x['id'])
    if t: x=dict(x); x['id']+='b'; x['targets']=[t]; M.append(x)
# ParseWork
m("PW1","ParseWork","w_one_of","| (Err None, _) => after n (w_one_of alts' t)","| (Err None, _) => w_one_of alts' t","alternatives that do not apply are paid for","Props_Work")
m("PW2","ParseWork","inner_call","Work (reads a) (S (deep a)).","Work (reads a) (deep a).","nesting counts as recursion","Props_Work")
m("PW3","ParseWork","also","Work (reads a + reads b) (Nat.max (deep a) (deep b)).","Work (reads a + reads b) (deep a + deep b).","recursion depth is a maximum, not a sum","Props_Work")
m("PW4","ParseWork","w_parse_variant","let (r3, n3) := w_one_of [w_parse_named_composite fuel; w_parse_unnamed_composite fuel] t2 in","let (r0, n0) := w_one_of [w_parse_named_composite fuel; w_parse_unnamed_composite fuel] t2 in\n          let (r3, n3) := after n0 (w_one_of [w_parse_named_composite fuel; w_parse_unnamed_composite fuel] t2) in","values of a variant are parsed once (twice: exponential)","Props_Work")
m("PW5","ParseWork","w_sep_rest","((Ok (rev acc), t), n1) else","((Ok (rev acc), t1), n1) else","the loop puts the location back","Props_Work")
m("PW6","ParseWork","w_parse_field_name_and_value","let (r3, n3) := pv t2 in","let (r0, n0) := pv t2 in let (r3, n3) := after n0 (pv t2) in","a field's value is parsed once (twice: exponential)","Props_Work")
m("PW7","ParseWork","w_parse_value","let (r, n) := w_run_customs customs t in","let (r, n) := after (read (length t)) (w_run_customs customs t) in","parsing a value does not read the whole rest ahead (quadratic)","Props_Work")
m("PW8","ParseWork","w_parse_string","else after n1 (w_string_loop start t1 [] false).","else after (also n1 (read (length t1))) (w_string_loop start t1 [] false).","a string reads up to its quote only (quadratic)","Props_Work")
m("PW9","ParseWork","w_parse_delimited","if negb ok then ((Err None, t1), n1) else\n      let (t2, n2) := w_skip_whitespace t1 in\n      let '((ok, t3), n3) := w_token cl t2 in\n      if ok","if negb ok then ((Err None, t1), n1) else\n      let (t2, n2) := w_skip_whitespace t1 in\n      let '((ok, t3), n3) := w_token cl t2 in\n      if ok || (length t <? 2)%nat","empty composites need a closer","Props_Work")
m("PW10","ParseWork","w_string_loop","after (read 1)\n      (match t with\n       | [] => ((Err (Some (e_at_one (EStrClose start)","after (read (length acc))\n      (match t with\n       | [] => ((Err (Some (e_at_one (EStrClose start)","characters of a string are read once (quadratic)","Props_Work")
# DecodeWork
m("DW1","DecodeWork","within_call","DWork (1 + calls a) (1 + levels a).","DWork (calls a) (1 + levels a).","each value is a call","Props_DecodeWork")
m("DW2","DecodeWork","within_call","DWork (1 + calls a) (1 + levels a).","DWork (1 + calls a) (levels a).","nesting is recursion","Props_DecodeWork")
m("DW3","DecodeWork","then_","N.max (levels a) (levels b)","levels a + levels b","depth is a maximum","Props_DecodeWork")
m("DW4","DecodeWork","wbind","| Err e => (Err e, snd m)","| Err e => (Err e, idle)","work that ends in an error counts","Props_DecodeWork")
m("DW5","DecodeWork","k_items","| t :: ts' => wbind (dec t bs) (fun x => wbind (k_items dec ts' (snd x))","| t :: ts' => wbind (dec t bs) (fun x => wbind (k_items dec ts' bs)","items follow each other","Props_DecodeWork")
m("DW6","DecodeWork","k_items","| t :: ts' => wbind (dec t bs) (fun x =>","| t :: ts' => wbind (dec t bs) (fun _ => wbind (dec t bs) (fun x =>","an item is decoded once (twice: exponential)","Props_DecodeWork")
M[-1]['new']="| t :: ts' => wbind (wbind (dec t bs) (fun _ => dec t bs)) (fun x =>"
m("DW7","DecodeWork","k_named","wbind (dec t bs) (fun x => wbind (k_named dec fs' (snd x)) (fun y =>","wbind (wbind (dec t bs) (fun _ => dec t bs)) (fun x => wbind (k_named dec fs' (snd x)) (fun y =>","a named field is decoded once (twice: exponential)","Props_DecodeWork")
m("DW8","DecodeWork","kdecode","| ResTy (TCompact t') => kdecode f true t' bs","| ResTy (TCompact t') => wbind (kdecode f true t' bs) (fun _ => kdecode f true t' bs)","compact contents are decoded once","Props_DecodeWork")
m("DW9","DecodeWork","kdecode","if compact && negb (length ts =? 1)%nat then alone (Err ECannotCompact)","if compact && negb (length ts <=? 1)%nat then alone (Err ECannotCompact)","Compact<()> is an error","Props_DecodeWork")
json.dump(M,open('/tmp/gen/mu9.json','w'))
for x in M:
    s=open('/verif/rocq/theories/%s.v'%x['file']).read()
    if s.count(x['old'])!=1: print(x['id'],s.count(x['old']))
