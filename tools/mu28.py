import json
M=[]
def m(i,f,d,o,n,c,t="Props_Shuffled"): M.append(dict(id=i,file=f,definition=d,old=o,new=n,claim=c,targets=t.split()))
m("NA1","Serde","composite_de","    | HSeq => Ok (VSeq false (map SrcValue (values c)))                                  (* 427-438 *)\n","    | HSeq | HStruct => Ok (VSeq false (map SrcValue (values c)))\n","fields of structs are found in any order (C111): structs are read by position")
m("NA2","Serde","struct_entries","        | None => bind (de_ignored s) (fun _ => struct_entries fs l' acc)","        | None => bind (de_ignored s) (fun _ => Ok acc)","fields of structs are found in any order (C111): reading stops at the first unknown field")
m("NA3","Serde","visit_enum","            rmap (fun l => XEnum n (VsStruct l)) (visit_struct fs m (composite_any c))","            rmap (fun l => XEnum n (VsStruct l)) (visit_struct fs m (VSeq false (map SrcValue (values c))))","fields of enum variants are found in any order (C111): read by position")
m("NA4","Serde","map_insert","      if str_ltb k k' then (k, x) :: l\n","      if str_ltb k k' then (k', x') :: map_insert k x l'\n","maps read back the same in any order (C111): entries are kept in the order of reading")
m("NA5","Serde","composite_any","    | Named l => VMap (map (fun kv => (fst kv, SrcValue (snd kv))) l)","    | Named l => VMap (map (fun kv => (fst kv, SrcValue (snd kv))) (tl l))","fields of structs are found in any order (C111): the first entry is skipped")
m("NA7","Serde","variant_de","    | HNewtypeStruct => Ok (VSeq false [SrcVariant n c])                                  (* 617-626 *)","    | HNewtypeStruct => Ok (VSeq false [SrcComposite c])","enums inside newtypes read back (C111): the variant name is dropped")
json.dump(M,open('/tmp/gen/mu28.json','w'))
T="/verif/rocq/theories/"
for x in M:
    s=open(T+x['file']+'.v').read()
    if s.count(x['old'])!=1: print(x['id'],s.count(x['old']))
