import json
M=[]
def m(id,file,defn,old,new,claim,targets): M.append(dict(id=id,file=file,definition=defn,old=old,new=new,claim=claim,targets=targets))
D=['Props_Decode']; DE=['Props_Decode','Props_Encode']; EN=['Props_Encode']; SE=['Props_Serde']; MA=['Props_Macro']
# Scale / decode
m('S1','Scale','compact_encode','if n <? 2 ^ 6 then','if n <=? 2 ^ 6 then','compact encoding of 64 uses two bytes (C38, C25)',DE)
m('S2','Scale','compact_decode','chk (2 ^ 14) (le_val','chk 0 (le_val','non-minimal compact numbers are rejected (C21, C23)',D)
m('S3','Scale','utf8_next','(0x800 <=? n) && is_scalar n','is_scalar n','overlong UTF-8 is rejected (C21)',D)
m('S4','Scale','order_bits','Msb0 => rev l','Msb0 => l','Msb0 bit order (C21, C34)',DE)
m('S5','Scale','signed_of','if n <? 2 ^ (w - 1)','if n <=? 2 ^ (w - 1)','-2^(w-1) decodes as negative (C21)',D)
m('S6','Scale','read_prim','else if b =? 1 then Ok (PBool true, r) else Err ECodec','else Ok (PBool true, r)','a bool is 0 or 1 (C21, C23)',D)
m('S7','Scale','words_for','((len + bsbits st - 1) / bsbits st)%nat','(len / bsbits st)%nat','the last partial word is read and written (C21, C34)',DE)
m('D1','Decode','decode_items','bind (decode_items dec ts\' (snd x)) (fun y => Ok (fst x :: fst y, snd y))','bind (decode_items dec ts\' (snd x)) (fun y => Ok (fst y ++ [fst x], snd y))','elements keep their order (C21)',D)
m('D2','Decode','visit_composite','(0 <? length fs)%nat && negb (has_unnamed fs)','negb (has_unnamed fs)','a struct without fields decodes to an unnamed composite (C21)',D)
m('D3','Decode','visit_composite','negb (has_unnamed fs)','existsb (fun f => is_some (fst f)) fs','a struct with a nameless field decodes unnamed (C21)',D)
m('D4','Decode','decode','find (fun v => vi_index v =? idx) vs','nth_error vs (N.to_nat idx)','variants are found by index, not position (C21)',D)
m('D5','Decode','decode','ResTy (TCompact t\') => decode f true t\' bs','ResTy (TCompact t\') => decode f compact t\' bs','compact types use the compact encoding (C21, C38)',DE)
m('D6','Decode','decode','if compact && negb (length fs =? 1)%nat then Err ECannotCompact','if false then Err ECannotCompact','compact structs have one field (C21)',D)
m('D7','Decode','decode','Ok (Val (DVariant (vi_name v) (fst x)) (ctxf t), snd x)','Ok (Val (DVariant (vi_name v) (fst x)) (ctxf t), bs\')','the cursor moves past the fields (C22)',D)
m('D8','Decode','decode','(repeat t\' (N.to_nat n)) bs','(repeat t\' (N.to_nat (n + 1))) bs','arrays have their length (C21)',D)
m('D9','Decode','decode','bind (visit_composite (decode f compact) fs bs) (fun x => Ok (Val (DComposite (fst x)) (ctxf t), snd x))','bind (visit_composite (decode f false) fs bs) (fun x => Ok (Val (DComposite (fst x)) (ctxf t), snd x))','the compact flag is passed through newtypes (C21, C38)',DE)
m('D10','Decode','decode','(fun x => to_unnamed (decode f false) t (repeat t\' (N.to_nat (fst x))) (snd x))','(fun x => to_unnamed (decode f false) t\' (repeat t\' (N.to_nat (fst x))) (snd x))','the context of a sequence is its own type id (C29)',D)
m('D11','Decode','decode_value_as_fields','Ok (Val (DComposite (fst x)) ctx, snd x)','Ok (Val (DComposite (fst x)) ctx, bs)','field-wise decoding moves the cursor (C36)',D)
m('D12','Decode','decode_named','Ok ((match name with Some n => n | None => [] end, fst x) :: fst y, snd y)','Ok ((match name with Some n => n | None => [] end, fst x) :: fst y, snd x)','the cursor moves past all named fields (C22)',D)
# trace
m('T1','Trace','unnamed_loop','unnamed_loop (S idx) (vals ++ [v]) ts\' bs\'','unnamed_loop idx (vals ++ [v]) ts\' bs\'','the path has the index of the failing element (C49)',D)
m('T2','Trace','named_loop','Err (with_outer (path ++ [SField n]) (Named vals)','Err (with_outer path (Named vals)','the path has the name of the failing field (C49)',D)
m('T3','Trace','unnamed_loop','(fun v => Unnamed (vals ++ [v])) e','(fun v => Unnamed [v]) e','the partial value has the elements decoded so far (C49)',D)
m('T4','Trace','trace','lift (bind (read_prim PI256 compact p bs)','lift (bind (read_prim PU256 compact p bs)','tracing decodes an i256 as I256 (C30_i256_refuted: the repaired program agrees)',D)
m('T5','Trace','to_unnamed_composite','if MAX_CAPACITY <? remaining then','if false then','capacity limit (C30_capacity_refuted: the repaired program agrees)',D)
m('T6','Trace','with_outer','| FromDecode d => FromVisitor outer_path default d','| FromDecode d => FromDecode d','errors inside a composite are located (C49)',D)
m('T7','Trace','with_outer','| FromVisitor a v d => FromVisitor a (into v) d','| FromVisitor a v d => FromVisitor outer_path (into v) d','the innermost location is kept (C49)',D)
m('T8','Trace','trace','match trace_composite (fun p => trace f p false) path (vi_fields v) bs\' with','match trace_composite (fun p => trace f p false) path (vi_fields v) bs with','fields start behind the index byte (C30)',D)
m('T9','Trace','named_loop','named_loop (vals ++ [(n, v)]) fs\' bs\'','named_loop ((n, v) :: vals) fs\' bs\'','fields keep their order (C30)',D)
m('T10','Trace','trace_composite','(0 <? length fs)%nat && negb (has_unnamed fs) then named_loop','(0 <? length fs)%nat then named_loop','structs with a nameless field are unnamed (C30)',D)
m('T11','Trace','trace','ResTy (TCompact t\') => trace f path true t\' bs','ResTy (TCompact t\') => trace f [] true t\' bs','the path survives a compact wrapper (C49)',D)
m('T12','Trace','map_so_far','| FromVisitor a v d => FromVisitor a (f v) d','| FromVisitor a v d => FromVisitor [] (f v) d','the location survives the wrapping of the partial value (C49)',D)
# encode
m('E1','Encode','find_single','if n =? 1 then find_single f t\' true else','if n <=? 1 then find_single f t\' true else','arrays of length 0 are not newtypes (C33)',EN)
m('E2','Encode','find_single','match fs with [fd] => find_single f (snd fd) true | _ => Some (t, changed) end','match fs with [(None, t2)] => find_single f t2 true | _ => Some (t, changed) end','primitives go through a struct with one named field (C33)',EN)
m('E3','Encode','in_unsigned','(z <? 2 ^ Z.of_N (wbits w))','(z <=? 2 ^ Z.of_N (wbits w))','2^w does not fit (C37)',EN)
m('E4','Encode','in_signed','(- 2 ^ (Z.of_N (wbits w) - 1) <=? z)','(- 2 ^ (Z.of_N (wbits w) - 1) <? z)','-2^(w-1) fits (C37)',EN)
m('E5','Encode','encode_number','then (SOk, out ++ compact_encode (Z.to_N z))','then (SOk, out ++ le_bytes (wbytes w) (Z.to_N z))','compact targets get the compact encoding (C38)',EN)
m('E6','Encode','encode_number','if in_signed w z then (SOk,','if in_unsigned w z then (SOk,','negative numbers fit signed targets (C37)',EN)
m('E7','Encode','encode_str','compact_encode (N.of_nat (length (utf8 s)) mod 2 ^ 32)','compact_encode (N.of_nat (length s) mod 2 ^ 32)','string length counts bytes (C25, C24)',EN)
m('E8','Encode','lookup_last','match lookup_last name src\' with\n                   | Some e => Some e\n                   | None => if str_eqb (key_of f) name then Some (snd f) else None\n                   end','if str_eqb (key_of f) name then Some (snd f) else lookup_last name src\'','of two fields with one name the last is taken (C32)',EN)
m('E9','Encode','encode_fields','if existsb named_field fs && existsb named_field src then','if forallb named_field fs && existsb named_field src then','fields are matched by name as soon as one is named (C32)',EN)
m('E10','Encode','encode_fields','    else if (length fs =? length src)%nat then encode_in_order','    else if (length fs <=? length src)%nat then encode_in_order','lengths must agree (C35)',EN)
m('E11','Encode','encode_by_name','| None => (SErr XMissingField, out)','| None => encode_by_name src fs\' out','a missing field is an error (C32)',EN)
m('E12','Encode','do_encode','if N.of_nat (clen c) =? n then encode_all (map snd (values c)) t\' out else (SErr XWrongLength, out)','encode_all (map snd (values c)) t\' out','array lengths are enforced (C35)',EN)
m('E13','Encode','do_encode','t\' (out ++ compact_encode (N.of_nat (clen c) mod 2 ^ 32))','t\' out','sequences have a length prefix (C35, C25)',EN)
m('E14','Encode','bit_of','| Some n => if (n =? 0) || (n =? 1) then Some (n =? 1) else None','| Some n => Some (negb (n =? 0))','numbers other than 0 and 1 are not bits (C34)',EN)
m('E15','Encode','encode_composite','      | (SOk, tmp) => (SOk, out ++ tmp)\n      | (SHang, _) => (SHang, out)\n      | (SErr original_error, _) =>','      | (SOk, tmp) => (SOk, tmp)\n      | (SHang, _) => (SHang, out)\n      | (SErr original_error, _) =>','encoding appends (C27)',EN)
m('E16','Encode','encode_composite','match do_encode c t [] with','match do_encode c t out with','a failed attempt leaves nothing in the buffer (C26), bytes are not doubled (C27)',EN)
m('E17','Encode','encode_composite','                  | _ => (SErr original_error, out)\n                  end\n              end','                  | _ => (SErr original_error, out ++ [0])\n                  end\n              end','a failed encode leaves the buffer alone (C26)',EN)
m('E18','Encode','encode_variant','find (fun v => str_eqb (vi_name v) name) vs','find (fun v => negb (str_eqb (vi_name v) name)) vs','variants are found by name (C24, C25)',EN)
m('E19','Encode','encode_variant','(out ++ [vi_index v])','(out ++ [vi_index v + 1])','the index byte (C25)',EN)
m('E20','Encode','encode_struct','match src with [(None, e)] => e t1 out | _ => encode_fields src fs out end','encode_fields src fs out','a one-element tuple is its element at a struct target (C33)',EN)
m('E21','Encode','encode_byte_array','if N.of_nat (length b) =? n then','if true then','array lengths are enforced for 256-bit numbers (C33, C25)',EN)
m('E22','Encode','encode_bool','Some [if b then 1 else 0]','Some [if b then 0 else 1]','booleans (C24, C25)',EN)
m('E23','Encode','encode_as_fields','| _ => (SErr XNotComposite, out)','| _ => (SOk, out)','only composites encode as fields (C25)',EN)
m('E24','Encode','encode_composite','match (if different then do_encode c t\' [] else (SErr original_error, [])) with','match (SErr original_error, []) with','composites go through newtypes of the target (C33)',EN)
m('E25','Encode','source_fields','| Named l => map (fun kv => (Some (fst kv), snd kv)) l','| Named l => map (fun kv => (None, snd kv)) l','names are used (C32)',EN)
m('E26','Encode','encode_in_order','| e :: es\', t :: ts\' => andthen (e t out) (fun out\' => encode_in_order es\' ts\' out\')','| e :: es\', t :: ts\' => andthen (encode_in_order es\' ts\' out) (fun out\' => e t out\')','fields are written in order (C24, C25)',EN)
m('E27','Encode','skip_through','match fs with [(None, t\')] => skip_through f t\' | _ => Some t end','match fs with [(_, t\')] => skip_through f t\' | _ => Some t end','named single fields are not skipped (C32, C33)',EN)
# serde
m('R1','Serde','composite_any','| Unnamed l => VSeq false (map SrcValue l)','| Unnamed l => VSeq false (rev (map SrcValue l))','order of elements (C39, C40)',SE)
m('R2','Serde','composite_de','if Nat.eqb (clen c) n then Ok (VSeq false (map SrcValue (values c))) else Err DCustom','Ok (VSeq false (map SrcValue (values c)))','tuples have their length (C44)',SE)
m('R3','Serde','composite_bytes','if (n <? 256)%N then Ok n else Err DCustom','Ok (n mod 256)%N','numbers above 255 are not bytes (C54)',SE)
m('R4','Serde','prim_de','| PI128 z => if in_int sg w z then VInt sg w z else prim_any p','| PI128 z => VInt sg w (if in_int sg w z then z else 0%Z)','numbers that do not fit are errors (C43)',SE)
m('R5','Serde','vdef_de','if str_eqb n (s2l "Some") && Nat.eqb (length vs) 1','if str_eqb n (s2l "Some") && negb (Nat.eqb (length vs) 0)','Some has one field (C46)',SE)
m('R6','Serde','vdef_de','else if str_eqb n (s2l "None") && Nat.eqb (length vs) 0 then Ok VNone','else if str_eqb n (s2l "None") then Ok VNone','None has no fields (C46)',SE)
m('R7','Serde','visit_map_or_bits','if str_eqb k bitvec_key then','if false then','bit sequences are recognised (C39)',SE)
m('R8','Serde','visit_prim','| VInt true _ z => Ok (PI128 z)','| VInt true _ z => Ok (if (0 <=? z)%Z then PU128 (Z.to_N z) else PI128 z)','signedness is kept (C39)',SE)
m('R9','Serde','to_value_sd','SNone => Ok (unnamed_variant (s2l "None") [])','SNone => Ok (unnamed_composite [])','None is a variant (C46)',SE)
m('R10','Serde','to_value_sd','| SFloat => Err SECannotSerializeFloats','| SFloat => Ok (vu128 0)','floats are rejected (C50)',SE)
m('R11','Serde','key_of','  | DPrim (PChar c) => Ok [c]\n','','char keys are accepted (C50)',SE)
m('R12','Serde','first_ok_type','if in_int sg w z then SInt sg w z else','if in_int sg (w + 1) z then SInt sg w z else','a number is written in a type it fits (C42)',SE)
m('R13','Serde','composite_de','| HUnit | HUnitStruct => if cis_empty c then Ok VUnit else Err DCustom','| HUnit | HUnitStruct => Ok VUnit','unit is an empty composite (C56)',SE)
m('R14','Serde','composite_de','| HNewtypeStruct => Ok (VSeq false [SrcComposite c])','| HNewtypeStruct => Ok (VSeq false (map SrcValue (values c)))','newtypes are read without unwrapping (C41; the repaired program round trips)',SE)
m('R15','Serde','ser_variant_with','(SStr (s2l "name"), SStr n); (SStr (s2l "values"), ser_composite_with f c)','(SStr (s2l "values"), ser_composite_with f c)','variants serialise with their name (C42, C52)',SE)
m('R16','Serde','variant_de','| HAny | HEnum => Ok (VEnum n c)','| HAny | HEnum => Ok (composite_any c)','variants are read as enums (C57, C39)',SE)
m('R17','Serde','ser_prim','PU256 b => STuple (map (fun x => SInt false 8 (Z.of_N x)) b)','PU256 b => STuple (map (fun x => SInt false 8 (Z.of_N x)) (rev b))','byte order of 256-bit numbers (C42)',SE)
m('R18','Serde','visit_prim','VBytes b => if Nat.eqb (length b) 32 then Ok (PU256 b) else Err DType','VBytes b => Ok (PU256 b)','only 32 bytes are a number (C39)',SE)
m('R19','Serde','to_value_sd','| SInt false _ z => Ok (vu128 (Z.to_N z))','| SInt false _ z => Ok (vi128 z)','unsigned stays unsigned (C40, C42)',SE)
m('R20','Serde','bits_de','| HNewtypeStruct | HTuple _ | HTupleStruct _ | HUnit | HUnitStruct | HEnum | HBytes | HSeq | HMap => Err DCustom','| HNewtypeStruct | HTuple _ | HTupleStruct _ | HUnit | HUnitStruct | HEnum | HBytes | HMap => Err DCustom','bit sequences cannot be read as sequences (C55; the changed program gives a map)',SE)
m('R21','Serde','composite_de','| HSeq => Ok (VSeq false (map SrcValue (values c)))','| HSeq => match c with Unnamed l => Ok (VSeq false (map SrcValue l)) | Named _ => Err DCustom end','named fields can be read as a sequence (C54)',SE)
m('R22','Serde','prim_any','| PI256 b => VBytes b','| PI256 b => VBytes (rev b)','256-bit numbers are read as their bytes (C39)',SE)
m('R23','Serde','visit_composite','| VMap l => rmap Named (mapM (fun kv => rmap (pair (fst kv)) (rec (snd kv))) l)','| VMap l => rmap (fun l => Unnamed (map snd l)) (mapM (fun kv => rmap (pair (fst kv)) (rec (snd kv))) l)','a Composite keeps its field names (C39)',SE)
# macro
m('M1','Macro','after_value','| TComma :: r => k (acc ++ [v]) r','| TComma :: r => k (v :: acc) r','elements keep their order (C47)',MA)
m('M2','Macro','after_value','    | _ :: _ => None                                  (* 144-147: compile_error! *)','    | _ :: r => k (acc ++ [v]) r','a missing comma is an error (C47)',MA)
m('M3','Macro','unnamed_rules','        | TGroup Brace m :: r => next (EMac [TGroup Brace m]) r                              (* 128-130 *)\n','','nested structs in tuples (C47)',MA)
m('M4','Macro','named_rules','| [] => None                                                                 (* 225-227 *)','| [] => Some acc','a key without a value is an error (C47)',MA)
m('M5','Macro','named_rules','          | _, TComma :: _ => None                                                           (* 235-237 *)\n','','no commas in keys (C47)',MA)
m('M6','Macro','after_entry','| [] => done (acc ++ [(key_name key, v)])            (* 182-187 *)','| [] => done acc','the last entry is kept (C47)',MA)
m('M7','Macro','expand','| [TIdent n; TGroup Paren l] => option_map (unnamed_variant n)','| [TIdent n; TGroup Paren l] => option_map (unnamed_variant [])','variant names (C47)',MA)
m('M8','Macro','expand','| [TGroup Brace []] => Some (named_composite [])','| [TGroup Brace []] => Some (unnamed_composite [])','{} is a named composite (C47)',MA)
m('M9','Macro','value_rules','        | POk e [] => Some (next (EUser e) [])                                               (* 215-217 *)\n','','the last value needs no comma (C47)',MA)
m('M10','Macro','value_from','RPairs l => Val (DComposite (Named (map','RPairs l => Val (DComposite (Named (rev (map',None,MA)
M.pop()
m('M10','Macro','value_from','| RVec l => Val (DComposite (Unnamed (map value_from l))) tt','| RVec l => Val (DComposite (Unnamed (rev (map value_from l)))) tt','vectors keep their order (C58)',MA)
m('M11','Macro','value_from','| RInt _ z => Val (DPrim (from_int z)) tt','| RInt _ z => Val (DPrim (from_uint z)) tt','signed integers stay signed (C58)',MA)
m('M12','Macro','named_rules','          | [], TGroup Paren k :: TColon :: r =>\n              match P k with\n              | PFatal => None\n              | POk key [] =>','          | [], TGroup Paren k :: TColon :: r =>\n              match P k with\n              | PFatal => None\n              | POk key [] as x =>',None,MA)
M.pop()
json.dump(M,open('/tmp/gen/mu2.json','w'))
print(len(M))
