import json
M=[]
def m(i,f,d,o,n,c,t="Props_Places"): M.append(dict(id=i,file=f,definition=d,old=o,new=n,claim=c,targets=t.split()))
m("NB1","Value","at_composite","      | Named l => option_map snd (nth_error l n)","      | Named l => option_map snd (nth_error (rev l) n)","parts are found by position (C112): named fields are counted from the end")
m("NB2","Value","find_field","  | (n, v) :: l' => if str_eqb s n then Some v else find_field s l'","  | (n, v) :: l' => match find_field s l' with Some w => Some w | None => if str_eqb s n then Some v else None end","at finds the first field of a name (C112): the last one is found")
m("NB3","Serde","to_value_sd","  | SNewtypeStruct x => bind (to_value_sd x) (fun v => Ok (unnamed_composite [v]))","  | SNewtypeStruct x => bind (to_value_sd x) (fun v => Ok v)","the part of a newtype is at index 0 (C112): newtypes are transparent")
m("NB4","Serde","to_value_sd","  | SNewtypeVariant n x => bind (to_value_sd x) (fun v => Ok (unnamed_variant n [v]))","  | SNewtypeVariant n x => bind (to_value_sd x) (fun v => Ok (unnamed_variant n [unnamed_composite [v]]))","the part of a newtype variant is at index 0 (C112): it is wrapped once more")
m("NB5","Serde","to_value_sd","  | SSome x => bind (to_value_sd x) (fun v => Ok (unnamed_variant (s2l \"Some\") [v]))","  | SSome x => bind (to_value_sd x) (fun v => Ok v)","the part of Some is at index 0 (C112): options are transparent")
m("NB6","Value","at_composite","      | Unnamed l => nth_error l n","      | Unnamed l => nth_error l (Nat.pred n)","parts are found by position (C112): indexes count from one")
m("NB7","Serde","to_value_sd","  | STupleVariant n l => rmap (unnamed_variant n) (mapM to_value_sd l)","  | STupleVariant n l => rmap (fun l => unnamed_variant n (rev l)) (mapM to_value_sd l)","parts of tuple variants are at their index (C112): they are written in reverse order")
json.dump(M,open('/tmp/gen/mu29.json','w'))
T="/verif/rocq/theories/"
for x in M:
    s=open(T+x['file']+'.v').read()
    if s.count(x['old'])!=1: print(x['id'],s.count(x['old']))
