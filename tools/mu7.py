import json
M=[]
def m(id,file,d,old,new,claim,targets): M.append(dict(id=id,file=file,definition=d,old=old,new=new,claim=claim,targets=targets.split()))
W="Props_Writes"
m("W1","Encode","find_single","| ResTy (TArray t' n) => if n =? 1 then find_single f t' true","| ResTy (TArray t' n) => if n <=? 1 then find_single f t' true","only arrays of length one are wrappers",W)
m("W2","Encode","skip_through","| ResTy (TComposite fs) => match fs with [(None, t')] => skip_through f t' | _ => Some t end","| ResTy (TComposite fs) => match fs with [(_, t')] => skip_through f t' | _ => Some t end","a named one-field struct is not skipped for composites",W)
m("W3","Encode","in_unsigned","((0 <=? z) && (z <? 2 ^ Z.of_N (wbits w)))%Z","((0 <=? z) && (z <=? 2 ^ Z.of_N (wbits w)))%Z","upper bound of unsigned",W)
m("W4","Encode","in_signed","(- 2 ^ (Z.of_N (wbits w) - 1) <=? z)","(- 2 ^ (Z.of_N (wbits w) - 1) <? z)","the least signed number fits",W)
m("W5","Encode","encode_char","| _ => encode_number (Z.of_N c) t out","| ResTy (TPrim (PtU W32)) => encode_number (Z.of_N c) t out | _ => (SErr XWrongShape, out)","a char is written at any integer type it fits",W)
m("W6","Encode","encode_str","N.of_nat (length (utf8 s)) mod 2 ^ 32) ++ utf8 s","N.of_nat (length s) mod 2 ^ 32) ++ utf8 s","the prefix of a string counts bytes",W)
m("W7","Encode","encode_byte_array","| ResTy (TComposite fs) => match fs with [fd] => encode_byte_array f b (snd fd) out | _ => (SErr XWrongShape, out) end","| ResTy (TComposite fs) => match fs with [(None, t')] => encode_byte_array f b t' out | _ => (SErr XWrongShape, out) end","256-bit numbers look through named one-field structs",W)
m("W8","Encode","encode_byte_array","if N.of_nat (length b) =? n then encode_all (map (fun x => encode_number (Z.of_N x)) b) t' out else (SErr XWrongLength, out)","encode_all (map (fun x => encode_number (Z.of_N x)) b) t' out","256-bit numbers need an array of 32",W)
m("W9","Encode","encode_byte_array","(out ++ compact_encode (N.of_nat (length b) mod 2 ^ 32))","out","256-bit numbers at a sequence have a prefix",W)
m("W10","Encode","lookup_last","| f :: src' => match lookup_last name src' with\n                   | Some e => Some e\n                   | None => if str_eqb (key_of f) name then Some (snd f) else None\n                   end","| f :: src' => if str_eqb (key_of f) name then Some (snd f) else lookup_last name src'","the last field with a name is written",W)
m("W11","Encode","encode_fields","if existsb named_field fs && existsb named_field src then","if forallb named_field fs && existsb named_field src then","by name as soon as one field of the type has a name",W)
m("W12","Encode","encode_fields","else if (length fs =? length src)%nat then","else if (length fs <=? length src)%nat then","by position the numbers must agree",W)
m("W13","Encode","encode_struct","| ResTy (TComposite fs) => match src with [(None, e)] => e t1 out | _ => encode_fields src fs out end","| ResTy (TComposite fs) => encode_fields src fs out","an unnamed one-value composite at a struct is its value",W)
m("W14","Encode","encode_struct","| ResTy (TTuple ts) => match src with [(_, e)] => e t1 out","| ResTy (TTuple ts) => match src with [(None, e)] => e t1 out","a one-value composite at a tuple is its value, named or not",W)
m("W15","Encode","encode_struct","| _ => match src with [(_, e)] => e t1 out | _ => (SErr XWrongShape, out) end","| _ => (SErr XWrongShape, out)","a one-value composite goes to what is behind unnamed wrappers",W)
m("W16","Encode","bit_of","if (n =? 0) || (n =? 1) then Some (n =? 1) else None","Some (negb (n =? 0))","only 0 and 1 are bits",W)
m("W17","Encode","do_encode","N.of_nat (clen c) =? n then","N.of_nat (clen c) <=? n then","array lengths agree",W)
m("W18","Encode","do_encode","| _ => match values c with [x] => snd x t out | _ => (SErr XWrongShape, out) end\n      end.","| _ => (SErr XWrongShape, out)\n      end.","a one-value composite at a primitive (equivalent: the last attempt of encode_composite makes up for it)",W)
m("W19","Encode","encode_composite","(if different then do_encode c t' [] else (SErr original_error, []))","(SErr original_error, [])","a composite is tried inside the wrappers",W)
m("W20","Encode","encode_composite","| [x] => match snd x t' [] with","| [x] => match snd x t [] with","the only value is tried inside the wrappers",W)
m("W21","Encode","encode_variant","find (fun v => str_eqb (vi_name v) name) vs with","find (fun v => str_eqb (vi_name v) name) (rev vs) with","the first variant with the name",W)
m("W22","Encode","encode_variant","(out ++ [vi_index v])","out","the index is written",W)
m("W23","Encode","encode_composite","match do_encode c t [] with\n      | (SOk, tmp) => (SOk, out ++ tmp)","match do_encode c t out with\n      | (SOk, tmp) => (SOk, out ++ tmp)","what was in the buffer is not written twice",W)
m("W24","Encode","encode_number","then (SOk, out ++ compact_encode (Z.to_N z))","then (SOk, out ++ le_bytes (wbytes w) (Z.to_N z))","compact",W)
m("W25","Encode","encode_number","match find_single F t2 false with\n            | None => (SHang, out)\n            | Some (t3, _) =>","match Some (t2, true) with\n            | None => (SHang, out)\n            | Some (t3, _) =>","compact looks through wrappers inside",W)
m("W26","Encode","encode_as_fields","| DComposite c => encode_composite_as_fields c fs out\n","| DComposite c | DVariant _ c => encode_composite_as_fields c fs out\n","only composites are fields",W)
m("W27","Encode","key_of","match fst f with Some n => n | None => [] end","match fst f with Some n => n | None => s2l \"_\" end","an unnamed field of a type goes by the empty name",W)
m("W28","Encode","encode_by_name","| None => (SErr XMissingField, out)","| None => encode_by_name src fs' out","a missing field is an error",W)
json.dump(M,open('mu7.json','w'))
for x in M:
    t=open('/verif/rocq/theories/'+x['file']+'.v').read()
    if t.count(x['old'])!=1: print(x['id'],t.count(x['old']))
