import json
M=[]
def m(id,file,d,old,new,claim,targets): M.append(dict(id=id,file=file,definition=d,old=old,new=new,claim=claim,targets=targets.split()))
P="Props_ToValue Props_Convert"
S="Serde"
m("TV9b",S,"to_value_sd","| STupleVariant n l => rmap (unnamed_variant n) (mapM to_value_sd l)","| STupleVariant n l => rmap (fun vs => unnamed_variant n (tl vs)) (mapM to_value_sd l)","tuple variants keep all fields (C94)",P)
m("TV11b",S,"to_value_sd","  | SMap l =>                                                                               (* 190-192, 345-377 *)\n      rmap named_composite","  | SMap l =>                                                                               (* 190-192, 345-377 *)\n      rmap (fun vs => named_composite (rev vs))","map entries in order (C94)",P)
D="DocRich"; Q="Props_RichDocs"
m("RX1",D,"rtext","| RChar c => Ok [c]\n","","chars are keys too (C96)",Q)
m("RX2",D,"rtext","| _ => Err DType\n  end.\n\n(** [Vec<bool>","| RNewtype (RStr s) => Ok s\n  | _ => Err DType\n  end.\n\n(** [Vec<bool>","a newtype is no key (C96)",Q)
m("RX3",D,"rvalue","| RNewtype x => rvalue x ","| RNewtype x => rmap (fun v => unnamed_composite [v]) (rvalue x) ","newtypes are transparent for values (C96)",Q)
m("RX4",D,"rfields","| RNewtype x => rfields x ","| RNewtype x => rmap (fun v => Unnamed [v]) (rvalue x) ","newtypes are transparent for composites (C96)",Q)
m("RX5",D,"rvalue","if strict && negb (Nat.eqb (length l) 0) then Err DLength else Ok (bit_sequence b))","Ok (bit_sequence b))","strict formats refuse half-read maps (C96)",Q)
m("RX6",D,"rvalue","if str_eqb s bitvec_key then ","if str_eqb s bitvec_key && Nat.eqb (length l) 0 then ","a reserved first key always means bits (C96)",Q)
m("RX7",D,"rvariant","| RSome x => rmap (fun v => (s2l \"Some\", Unnamed [v])) (rvalue x)","| RNewtype (RSome x) | RSome x => rmap (fun v => (s2l \"Some\", Unnamed [v])) (rvalue x)","no newtypes around variants (C96_newtype_refuted)",Q)
m("RX8",D,"rvariant_fields","else Err DUnknown)","else rvariant_fields l' name vals)","unknown entries are refused (C96)",Q)
m("RX9",D,"rvariant_fields","bind (rtext x) (fun n => rvariant_fields l' (Some n) vals)","bind (rtext x) (fun n => rvariant_fields l' (match name with Some m => Some m | None => Some n end) vals)","the last name counts (C96)",Q)
m("RX10",D,"rprim","| RSeq l => bind (mapM ru8 l) (fun b => if Nat.eqb (length b) 32 then","| RSeq l => bind (mapM ru8 l) (fun b => if Nat.leb (length b) 32 then","exactly 32 bytes (C96)",Q)
m("RX11",D,"ru8","if (w =? 128)%N then Err DType else if in_int false 8 z","if in_int false 8 z","u8 takes no 128-bit integers (serde)",Q)
m("RX12",D,"rvalue","| RMap [] => Ok (named_composite [])","| RMap [] => Ok (unnamed_composite [])","the empty map is an empty named composite (C96)",Q)
m("RX13",D,"rvalue","match p with Some x => rmap (fun c => Val (DVariant s c) tt) (rfields x) | None => Err DType end)","match p with Some x => rmap (fun c => Val (DVariant s c) tt) (rfields x) | None => Ok (unnamed_variant s []) end)","variants without contents are refused (C96)",Q)
m("RX14","SerdeContent","next_relevant","else bind (de_ignored s) (fun _ => next_relevant tag cont l')","else Err DUnknown","other entries are ignored (C71)","Props_Content")
m("RX15","SerdeContent","de_adjacently_tagged","              | None => absent n\n","              | None => Err DMissing\n","a tag alone is enough for variants without content (C71)","Props_Content")
m("RX16","SerdeContent","at_end","match r with None => Ok x | Some _ => Err DDuplicate end","Ok x","a second tag or content is an error (C71)","Props_Content")
json.dump(M,open('/tmp/gen/mu16.json','w'))
T="/verif/rocq/theories/"
for x in M:
    s=open(T+x['file']+'.v').read()
    if s.count(x['old'])!=1: print(x['id'],s.count(x['old']))
