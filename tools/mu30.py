import json
M=[]
def m(i,f,d,o,n,c,t="Props_DataEdit"): M.append(dict(id=i,file=f,definition=d,old=o,new=n,claim=c,targets=t.split()))
m("NC1","Serde","prim_de","        | PU128 n => if in_int sg w (Z.of_N n) then VInt sg w (Z.of_N n) else prim_any p\n","        | PU128 n => if in_int sg w (Z.of_N n) && negb sg then VInt sg w (Z.of_N n) else prim_any p\n","signed numbers survive text (C113): unsigned values are refused for signed types")
m("NC2","Serde","composite_de","    | HSeq => Ok (VSeq false (map SrcValue (values c)))                                  (* 427-438 *)\n","    | HSeq => Ok (VSeq false (map SrcValue (rev (values c))))\n","an edit changes exactly that element (C113): sequences are read backwards")
m("NC4","Serde","struct_finish","(match find_field (fst m) acc with Some x => Ok x | None => snd m end)","(match find_field (fst m) (tl acc) with Some x => Ok x | None => snd m end)","an edit changes exactly that field (C113): the last field read is forgotten")
m("NC5","Serde","seq_take","bind (seq_take fs' l') (fun r => Ok (x :: fst r, snd r))","bind (seq_take fs' l') (fun r => Ok (match fst r with y :: ys => y :: x :: ys | [] => [x] end, snd r))","an edit changes exactly that element (C113): tuple elements are mixed up")
m("NC6","Serde","to_value_sd","  | SSeq l | STuple l | STupleStruct l => rmap unnamed_composite (mapM to_value_sd l)","  | SSeq l | STuple l | STupleStruct l => rmap (fun l => unnamed_composite (filter (fun v => match v with Val (DComposite (Unnamed [])) _ => false | _ => true end) l)) (mapM to_value_sd l)","every part lies in its place (C113): empty elements are dropped")
m("NC7","Parse","parse_number","      | Some n => (Ok (PI128 n), t3)\n","      | Some n => (Ok (PI128 (- n)), t3)\n","numbers survive text (C113): the minus sign is dropped")
m("NC8","Serde","visit_char","    | VString [c] => Ok c\n","    | VString (c :: _) => Ok c\n","C113_read: what lies is read; a char is read from a longer string (rules of C93)")
json.dump(M,open('/tmp/gen/mu30.json','w'))
T="/verif/rocq/theories/"
for x in M:
    s=open(T+x['file']+'.v').read()
    if s.count(x['old'])!=1: print(x['id'],s.count(x['old']))
