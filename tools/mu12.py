import json
M=[]
def m(id,file,d,old,new,claim,targets): M.append(dict(id=id,file=file,definition=d,old=old,new=new,claim=claim,targets=targets.split()))
E="Props_Errors"; D="Props_DecodeErrors"; B="Props_Builder"; A="Props_SerdeAlloc"; N="Props_Newtype"
m("EE1","Encode","encode_number","        | ResErr => (SErr XTypeResolving, out)\n        | ResTy (TPrim (PtU w)) => if in_unsigned w z then (SOk, out ++ le","        | ResErr => (SErr XOutOfRange, out)\n        | ResTy (TPrim (PtU w)) => if in_unsigned w z then (SOk, out ++ le","an unresolvable type gives the resolving error",E)
m("EE2","Encode","encode_number","(SOk, out ++ le_bytes (wbytes w) (Z.to_N z)) else (SErr XOutOfRange, out)","(SOk, out ++ le_bytes (wbytes w) (Z.to_N z)) else (SErr XWrongShape, out)","a number too large for the type is out of range, not of the wrong shape",E)
m("EE3","Encode","encode_number","(SOk, out ++ compact_encode (Z.to_N z)) else (SErr XOutOfRange, out)","(SOk, out ++ compact_encode (Z.to_N z)) else (SErr XWrongLength, out)","a number too large for a compact type is out of range",E)
m("EE4","Encode","encode_by_name","(SErr XMissingField, out)","(SErr XWrongLength, out)","a missing field is reported as missing",E)
m("EE5","Encode","encode_fields","else (SErr XWrongLength, out).","else (SErr XMissingField, out).","a wrong number of values is reported as such",E)
m("EE6","Encode","do_encode","encode_all (map snd (values c)) t' out else (SErr XWrongLength, out)","encode_all (map snd (values c)) t' out else (SErr XBadBit, out)","a wrong number of items for an array is reported as such",E)
m("EE7","Encode","do_encode","| None => (SErr XBadBit, out) end","| None => (SErr XOutOfRange, out) end","a value that is no bit is reported as such",E)
m("EE8","Encode","encode_variant","(SErr XNoVariant, out)","(SErr XMissingField, out)","a missing variant is reported as such",E)
m("EE9","Encode","encode_variant","match find (fun v => str_eqb (vi_name v) name) vs with","match find (fun v => str_eqb (vi_name v) name) (tl vs) with","no variant only if there is none of the name",E)
m("EE10","Encode","encode_as_fields","| _ => (SErr XNotComposite, out)","| _ => (SErr XWrongShape, out)","only composites can be fields",E)
m("EE11","Encode","in_signed","(z <? 2 ^ (Z.of_N (wbits w) - 1))","(z <? 2 ^ (Z.of_N (wbits w) - 1) - 1)","out of range only outside the range",E)
m("EE12","Encode","bit_of","if (n =? 0) || (n =? 1) then","if (n =? 1) then","0 is a bit",E)
m("EE13","Encode","encode_composite","                           | (SErr _, _) => (SErr original_error, out)\n                           end","                           | (SErr _, _) => (SErr XWrongShape, out)\n                           end","the error of the first attempt is reported",E)
m("EE14","Encode","encode_leaf","        | ResErr => (SErr XTypeResolving, out)\n        | ResNotFound","        | ResErr => (SErr XWrongShape, out)\n        | ResNotFound","an unresolvable type gives the resolving error",E)
m("EE15","Encode","encode_struct","        | ResErr => (SErr XTypeResolving, out)\n        | ResTy (TComposite fs) => match src","        | ResTy (TComposite fs) => match src","an unresolvable type gives the resolving error",E)
m("EE16","Encode","do_encode","      | ResErr => (SErr XTypeResolving, out)\n      | ResTy (TComposite _)","      | ResTy (TComposite _)","an unresolvable type gives the resolving error",E)
m("EE17","Encode","encode_byte_array","        | ResErr => (SErr XTypeResolving, out)\n        | ResTy (TArray t' n) =>\n            if N.of_nat (length b)","        | ResTy (TArray t' n) =>\n            if N.of_nat (length b)","an unresolvable type gives the resolving error",E)
m("EE18","Encode","encode_fields","(length fs =? length src)%nat","(length fs <=? length src)%nat","too many values are reported",E+" Props_Encode")
# decode
m("DE1","Decode","decode","| ResNotFound => Err EIdNotFound","| ResNotFound => Err ETypeResolving","an unknown id is reported as such",D)
m("DE2","Decode","decode","| ResErr => Err ETypeResolving","| ResErr => Err EIdNotFound","a resolving error is reported as such",D)
m("DE3","Decode","decode","| None => Err EVariantNotFound","| None => Err ENotEnough","an unknown variant index is reported as such",D)
m("DE4","Decode","decode","| [] => Err ENotEnough\n                 | idx","| [] => Err EVariantNotFound\n                 | idx","missing bytes are reported as such",D)
m("DE5","Decode","decode","if compact && negb (length ts =? 1)%nat then Err ECannotCompact","if negb (length ts =? 1)%nat && compact && negb (length ts =? 0)%nat then Err ECannotCompact","an empty tuple cannot be compact",D)
m("DE6","Decode","decode","if compact && negb (length fs =? 1)%nat then Err ECannotCompact","if compact && negb (length fs =? 1)%nat then Err ECodec","a struct of two fields cannot be compact",D)
m("DE7","Decode","decode","            if compact then Err ECannotCompact\n            else to_unnamed (decode f false) t (repeat t' (N.to_nat n)) bs","            to_unnamed (decode f false) t (repeat t' (N.to_nat n)) bs","an array cannot be compact",D)
m("DE8","Decode","decode","            if compact then Err ECannotCompact\n            else bind (decode_bits (x_maxbits X) st o bs)","            bind (decode_bits (x_maxbits X) st o bs)","bits cannot be compact",D)
m("DE9","Decode","decode","            if compact then Err ECannotCompact\n            else bind (compact_decode (x_len X) bs)","            if compact then Err ECannotCompact\n            else bind (compact_decode 32 bs)","lengths are read as the platform's integers",D)
m("DE10","Decode","decode","find (fun v => vi_index v =? idx) vs","find (fun v => vi_index v =? idx) (rev vs)","the first variant with the index is meant",D)
m("DE11","Decode","decode","| ResTy (TCompact t') => decode f true t' bs","| ResTy (TCompact t') => decode f (negb compact) t' bs","compact inside compact stays compact",D)
m("DE12","Scale","decode_bits","if maxbits <? fst x then Err EBits","if maxbits <=? fst x then Err EBits","exactly the maximum of bits is fine",D)
m("DE13","Scale","decode_bits","then Err EBits","then Err ENotEnough","too many bits are reported as such",D)
m("DE14","Scale","read_prim","else Err EInvalidChar","else Err ECodec","an invalid character is reported as such",D)
m("DE15","Scale","read_prim","| None => Err EInvalidStr end","| None => Err ECodec end","an invalid string is reported as such",D)
m("DE16","Scale","read_prim","| PtI w => bind (take (wbytes w) bs)","| PtI w => bind (take (S (wbytes w)) bs)","no error when the bytes of the integer are there",D)
m("DE17","Scale","read_prim","if compact then Err ECannotCompact else","if compact then Err ECodec else","a bool cannot be compact",D)
m("DE18","Scale","decode_bits","bind (compact_decode 32 bs)","bind (compact_decode 64 bs)","the number of bits is below 2^32",D)
# builders
m("BU1","Builder","wstep","custom_formatters g ++ [f]","f :: custom_formatters g","formatters are tried in the order added",B)
m("BU2","Builder","wstep","| CPretty => WB (Pretty 0) g ","| CPretty => WB (Pretty 1) g ","pretty printing starts at level 0",B)
m("BU3","Builder","wstep","WB (wb_style b) {| indent_by := s; leading_indent","WB (Pretty 0) {| indent_by := s; leading_indent","indent_by does not change the style",B)
m("BU4","Builder","wstep","leading_indent := s; custom_formatters := custom_formatters g; print_context := print_context g |}","leading_indent := leading_indent g ++ s; custom_formatters := custom_formatters g; print_context := print_context g |}","the last leading indent counts",B)
m("BU5","Builder","wstep","print_context := Some f |}","print_context := match print_context g with Some h => Some h | None => Some f end |}","the last format_context counts",B)
m("BU6","Builder","wnew","WB Normal {|","WB Compact {|","a new builder writes normally",B)
m("BU7","Builder","wnew","indent_by := s2l \"  \"","indent_by := s2l \"    \"","the default indent is two spaces",B)
m("BU8","Builder","wstep","| CCompact => WB Compact g ","| CCompact => WB Compact {| indent_by := indent_by g; leading_indent := leading_indent g; custom_formatters := []; print_context := print_context g |} ","compact keeps the formatters",B)
m("BU9","Builder","from_str_custom","ps ++ [p]","p :: ps","parsers are tried in the order added",B)
# alloc
m("SA1","SerdeAlloc","reserve","| None => 0%N end","| None => 16%N end","nothing is reserved without a hint",A)
m("SA2","SerdeAlloc","read_fields","| DMap hint _ l ends => lbind (reserve hint)","| DMap hint _ l ends => lbind (reserve None)","what is announced is reserved for named fields",A)
m("SA3","SerdeAlloc","read_value","else lbind (reserve hint')","else lbind (reserve (option_map (fun n => n + 1)%N hint'))","the hint after the first key is what is reserved",A)
m("SA4","SerdeAlloc","offer_composite","Some (n - 1)%N","Some n","the crate's own readers announce what is left",A)
m("SA5","SerdeAlloc","read_items","| [] => if ends then lret [] else lfail EFormat","| [] => lret []","a list cut short is an error",A)
m("SA6","SerdeAlloc","read_value","if str_eqb k bitvec_key then","if false then","the bits key makes bits",A)
m("SA7","SerdeAlloc","offer","| DBits b => DMap (Some 1%N) (Some 0%N) [(bitvec_key","| DBits b => DMap (Some 1%N) (Some (N.of_nat (length b))) [(bitvec_key","bits announce one entry",A)
m("SA8","SerdeAlloc","lbind","| Err e => (fst r, Err e)","| Err e => ([], Err e)","what was reserved before a failure counts",A)
# newtype
m("NT1","Serde","composite_de","| HNewtypeStruct => Ok (VSeq false [SrcComposite c])  ","| HNewtypeStruct => Ok (VSeq false (map (fun v => SrcValue v) (values c)))  ","a newtype's content is the whole composite",N)
m("NT2","Serde","variant_de","| HNewtypeStruct => Ok (VSeq false [SrcVariant n c])  ","| HNewtypeStruct => Ok (VSeq false [SrcComposite c])  ","a newtype's content is the whole variant",N)
m("NT3","Serde","prim_de","| HNewtypeStruct => VSeq false [SrcPrim p]","| HNewtypeStruct => VSeq false []","a newtype's content is the primitive",N)
for x in M:
    s=open('/verif/rocq/theories/%s.v'%x['file']).read()
    if s.count(x['old'])!=1: print("BAD",x['id'],s.count(x['old']))
json.dump(M,open('/tmp/gen/mu12.json','w'),indent=1)
