[{"id": "S1", "file": "Scale", "definition": "compact_encode", "old": "if n <? 2 ^ 6 then", "new": "if n <=? 2 ^ 6 then", "claim": "compact encoding of 64 uses two bytes (C38, C25)", "targets": ["Props_Decode", "Props_Encode"]}, {"id": "S2", "file": "Scale", "definition": "compact_decode", "old": "chk (2 ^ 14) (le_val", "new": "chk 0 (le_val", "claim": "non-minimal compact numbers are rejected (C21, C23)", "targets": ["Props_Decode"]}, {"id": "S3", "file": "Scale", "definition": "utf8_next", "old": "(0x800 <=? n) && is_scalar n", "new": "is_scalar n", "claim": "overlong UTF-8 is rejected (C21)", "targets": ["Props_Decode"]}, {"id": "S4", "file": "Scale", "definition": "order_bits", "old": "Msb0 => rev l", "new": "Msb0 => l", "claim": "Msb0 bit order (C21, C34)", "targets": ["Props_Decode", "Props_Encode"]}, {"id": "S5", "file": "Scale", "definition": "signed_of", "old": "if n <? 2 ^ (w - 1)", "new": "if n <=? 2 ^ (w - 1)", "claim": "-2^(w-1) decodes as negative (C21)", "targets": ["Props_Decode"]}, {"id": "S6", "file": "Scale", "definition": "read_prim", "old": "else if b =? 1 then Ok (PBool true, r) else Err ECodec", "new": "else Ok (PBool true, r)", "claim": "a bool is 0 or 1 (C21, C23)", "targets": ["Props_Decode"]}, {"id": "S7", "file": "Scale", "definition": "words_for", "old": "((len + bsbits st - 1) / bsbits st)%nat", "new": "(len / bsbits st)%nat", "claim": "the last partial word is read and written (C21, C34)", "targets": ["Props_Decode", "Props_Encode"]}, {"id": "D1", "file": "Decode", "definition": "decode_items", "old": "bind (decode_items dec ts' (snd x)) (fun y => Ok (fst x :: fst y, snd y))", "new": "bind (decode_items dec ts' (snd x)) (fun y => Ok (fst y ++ [fst x], snd y))", "claim": "elements keep their order (C21)", "targets": ["Props_Decode"]}, {"id": "D2", "file": "Decode", "definition": "visit_composite", "old": "(0 <? length fs)%nat && negb (has_unnamed fs)", "new": "negb (has_unnamed fs)", "claim": "a struct without fields decodes to an unnamed composite (C21)", "targets": ["Props_Decode"]}, {"id": "D3", "file": "Decode", "definition": "visit_composite", "old": "negb (has_unnamed fs)", "new": "existsb (fun f => is_some (fst f)) fs", "claim": "a struct with a nameless field decodes unnamed (C21)", "targets": ["Props_Decode"]}, {"id": "D4", "file": "Decode", "definition": "decode", "old": "find (fun v => vi_index v =? idx) vs", "new": "nth_error vs (N.to_nat idx)", "claim": "variants are found by index, not position (C21)", "targets": ["Props_Decode"]}, {"id": "D5", "file": "Decode", "definition": "decode", "old": "ResTy (TCompact t') => decode f true t' bs", "new": "ResTy (TCompact t') => decode f compact t' bs", "claim": "compact types use the compact encoding (C21, C38)", "targets": ["Props_Decode", "Props_Encode"]}, {"id": "D6", "file": "Decode", "definition": "decode", "old": "if compact && negb (length fs =? 1)%nat then Err ECannotCompact", "new": "if false then Err ECannotCompact", "claim": "compact structs have one field (C21)", "targets": ["Props_Decode"]}, {"id": "D7", "file": "Decode", "definition": "decode", "old": "Ok (Val (DVariant (vi_name v) (fst x)) (ctxf t), snd x)", "new": "Ok (Val (DVariant (vi_name v) (fst x)) (ctxf t), bs')", "claim": "the cursor moves past the fields (C22)", "targets": ["Props_Decode"]}, {"id": "D8", "file": "Decode", "definition": "decode", "old": "(repeat t' (N.to_nat n)) bs", "new": "(repeat t' (N.to_nat (n + 1))) bs", "claim": "arrays have their length (C21)", "targets": ["Props_Decode"]}, {"id": "D9", "file": "Decode", "definition": "decode", "old": "bind (visit_composite (decode f compact) fs bs) (fun x => Ok (Val (DComposite (fst x)) (ctxf t), snd x))", "new": "bind (visit_composite (decode f false) fs bs) (fun x => Ok (Val (DComposite (fst x)) (ctxf t), snd x))", "claim": "the compact flag is passed through newtypes (C21, C38)", "targets": ["Props_Decode", "Props_Encode"]}, {"id": "D10", "file": "Decode", "definition": "decode", "old": "(fun x => to_unnamed (decode f false) t (repeat t' (N.to_nat (fst x))) (snd x))", "new": "(fun x => to_unnamed (decode f false) t' (repeat t' (N.to_nat (fst x))) (snd x))", "claim": "the context of a sequence is its own type id (C29)", "targets": ["Props_Decode"]}, {"id": "D11", "file": "Decode", "definition": "decode_value_as_fields", "old": "Ok (Val (DComposite (fst x)) ctx, snd x)", "new": "Ok (Val (DComposite (fst x)) ctx, bs)", "claim": "field-wise decoding moves the cursor (C36)", "targets": ["Props_Decode"]}, {"id": "D12", "file": "Decode", "definition": "decode_named", "old": "Ok ((match name with Some n => n | None => [] end, fst x) :: fst y, snd y)", "new": "Ok ((match name with Some n => n | None => [] end, fst x) :: fst y, snd x)", "claim": "the cursor moves past all named fields (C22)", "targets": ["Props_Decode"]}, {"id": "T1", "file": "Trace", "definition": "unnamed_loop", "old": "unnamed_loop (S idx) (vals ++ [v]) ts' bs'", "new": "unnamed_loop idx (vals ++ [v]) ts' bs'", "claim": "the path has the index of the failing element (C49)", "targets": ["Props_Decode"]}, {"id": "T2", "file": "Trace", "definition": "named_loop", "old": "Err (with_outer (path ++ [SField n]) (Named vals)", "new": "Err (with_outer path (Named vals)", "claim": "the path has the name of the failing field (C49)", "targets": ["Props_Decode"]}, {"id": "T3", "file": "Trace", "definition": "unnamed_loop", "old": "(fun v => Unnamed (vals ++ [v])) e", "new": "(fun v => Unnamed [v]) e", "claim": "the partial value has the elements decoded so far (C49)", "targets": ["Props_Decode"]}, {"id": "T4", "file": "Trace", "definition": "trace", "old": "lift (bind (read_prim PI256 compact p bs)", "new": "lift (bind (read_prim PU256 compact p bs)", "claim": "tracing decodes an i256 as I256 (C30_i256_refuted: the repaired program agrees)", "targets": ["Props_Decode"]}, {"id": "T5", "file": "Trace", "definition": "to_unnamed_composite", "old": "if MAX_CAPACITY <? remaining then", "new": "if false then", "claim": "capacity limit (C30_capacity_refuted: the repaired program agrees)", "targets": ["Props_Decode"]}, {"id": "T6", "file": "Trace", "definition": "with_outer", "old": "| FromDecode d => FromVisitor outer_path default d", "new": "| FromDecode d => FromDecode d", "claim": "errors inside a composite are located (C49)", "targets": ["Props_Decode"]}, {"id": "T7", "file": "Trace", "definition": "with_outer", "old": "| FromVisitor a v d => FromVisitor a (into v) d", "new": "| FromVisitor a v d => FromVisitor outer_path (into v) d", "claim": "the innermost location is kept (C49)", "targets": ["Props_Decode"]}, {"id": "T8", "file": "Trace", "definition": "trace", "old": "match trace_composite (fun p => trace f p false) path (vi_fields v) bs' with", "new": "match trace_composite (fun p => trace f p false) path (vi_fields v) bs with", "claim": "fields start behind the index byte (C30)", "targets": ["Props_Decode"]}, {"id": "T9", "file": "Trace", "definition": "named_loop", "old": "named_loop (vals ++ [(n, v)]) fs' bs'", "new": "named_loop ((n, v) :: vals) fs' bs'", "claim": "fields keep their order (C30)", "targets": ["Props_Decode"]}, {"id": "T10", "file": "Trace", "definition": "trace_composite", "old": "(0 <? length fs)%nat && negb (has_unnamed fs) then named_loop", "new": "(0 <? length fs)%nat then named_loop", "claim": "structs with a nameless field are unnamed (C30)", "targets": ["Props_Decode"]}, {"id": "T11", "file": "Trace", "definition": "trace", "old": "ResTy (TCompact t') => trace f path true t' bs", "new": "ResTy (TCompact t') => trace f [] true t' bs", "claim": "the path survives a compact wrapper (C49)", "targets": ["Props_Decode"]}, {"id": "T12", "file": "Trace", "definition": "map_so_far", "old": "| FromVisitor a v d => FromVisitor a (f v) d", "new": "| FromVisitor a v d => FromVisitor [] (f v) d", "claim": "the location survives the wrapping of the partial value (C49)", "targets": ["Props_Decode"]}, {"id": "E1", "file": "Encode", "definition": "find_single", "old": "if n =? 1 then find_single f t' true else", "new": "if n <=? 1 then find_single f t' true else", "claim": "arrays of length 0 are not newtypes (C33)", "targets": ["Props_Encode"]}, {"id": "E2", "file": "Encode", "definition": "find_single", "old": "match fs with [fd] => find_single f (snd fd) true | _ => Some (t, changed) end", "new": "match fs with [(None, t2)] => find_single f t2 true | _ => Some (t, changed) end", "claim": "primitives go through a struct with one named field (C33)", "targets": ["Props_Encode"]}, {"id": "E3", "file": "Encode", "definition": "in_unsigned", "old": "(z <? 2 ^ Z.of_N (wbits w))", "new": "(z <=? 2 ^ Z.of_N (wbits w))", "claim": "2^w does not fit (C37)", "targets": ["Props_Encode"]}, {"id": "E4", "file": "Encode", "definition": "in_signed", "old": "(- 2 ^ (Z.of_N (wbits w) - 1) <=? z)", "new": "(- 2 ^ (Z.of_N (wbits w) - 1) <? z)", "claim": "-2^(w-1) fits (C37)", "targets": ["Props_Encode"]}, {"id": "E5", "file": "Encode", "definition": "encode_number", "old": "then (SOk, out ++ compact_encode (Z.to_N z))", "new": "then (SOk, out ++ le_bytes (wbytes w) (Z.to_N z))", "claim": "compact targets get the compact encoding (C38)", "targets": ["Props_Encode"]}, {"id": "E6", "file": "Encode", "definition": "encode_number", "old": "if in_signed w z then (SOk,", "new": "if in_unsigned w z then (SOk,", "claim": "negative numbers fit signed targets (C37)", "targets": ["Props_Encode"]}, {"id": "E7", "file": "Encode", "definition": "encode_str", "old": "compact_encode (N.of_nat (length (utf8 s)) mod 2 ^ 32)", "new": "compact_encode (N.of_nat (length s) mod 2 ^ 32)", "claim": "string length counts bytes (C25, C24)", "targets": ["Props_Encode"]}, {"id": "E8", "file": "Encode", "definition": "lookup_last", "old": "match lookup_last name src' with\n                   | Some e => Some e\n                   | None => if str_eqb (key_of f) name then Some (snd f) else None\n                   end", "new": "if str_eqb (key_of f) name then Some (snd f) else lookup_last name src'", "claim": "of two fields with one name the last is taken (C32)", "targets": ["Props_Encode"]}, {"id": "E9", "file": "Encode", "definition": "encode_fields", "old": "if existsb named_field fs && existsb named_field src then", "new": "if forallb named_field fs && existsb named_field src then", "claim": "fields are matched by name as soon as one is named (C32)", "targets": ["Props_Encode"]}, {"id": "E10", "file": "Encode", "definition": "encode_fields", "old": "    else if (length fs =? length src)%nat then encode_in_order", "new": "    else if (length fs <=? length src)%nat then encode_in_order", "claim": "lengths must agree (C35)", "targets": ["Props_Encode"]}, {"id": "E11", "file": "Encode", "definition": "encode_by_name", "old": "| None => (SErr XMissingField, out)", "new": "| None => encode_by_name src fs' out", "claim": "a missing field is an error (C32)", "targets": ["Props_Encode"]}, {"id": "E12", "file": "Encode", "definition": "do_encode", "old": "if N.of_nat (clen c) =? n then encode_all (map snd (values c)) t' out else (SErr XWrongLength, out)", "new": "encode_all (map snd (values c)) t' out", "claim": "array lengths are enforced (C35)", "targets": ["Props_Encode"]}, {"id": "E13", "file": "Encode", "definition": "do_encode", "old": "t' (out ++ compact_encode (N.of_nat (clen c) mod 2 ^ 32))", "new": "t' out", "claim": "sequences have a length prefix (C35, C25)", "targets": ["Props_Encode"]}, {"id": "E14", "file": "Encode", "definition": "bit_of", "old": "| Some n => if (n =? 0) || (n =? 1) then Some (n =? 1) else None", "new": "| Some n => Some (negb (n =? 0))", "claim": "numbers other than 0 and 1 are not bits (C34)", "targets": ["Props_Encode"]}, {"id": "E15", "file": "Encode", "definition": "encode_composite", "old": "      | (SOk, tmp) => (SOk, out ++ tmp)\n      | (SHang, _) => (SHang, out)\n      | (SErr original_error, _) =>", "new": "      | (SOk, tmp) => (SOk, tmp)\n      | (SHang, _) => (SHang, out)\n      | (SErr original_error, _) =>", "claim": "encoding appends (C27)", "targets": ["Props_Encode"]}, {"id": "E16", "file": "Encode", "definition": "encode_composite", "old": "match do_encode c t [] with", "new": "match do_encode c t out with", "claim": "a failed attempt leaves nothing in the buffer (C26), bytes are not doubled (C27)", "targets": ["Props_Encode"]}, {"id": "E17", "file": "Encode", "definition": "encode_composite", "old": "                  | _ => (SErr original_error, out)\n                  end\n              end", "new": "                  | _ => (SErr original_error, out ++ [0])\n                  end\n              end", "claim": "a failed encode leaves the buffer alone (C26)", "targets": ["Props_Encode"]}, {"id": "E18", "file": "Encode", "definition": "encode_variant", "old": "find (fun v => str_eqb (vi_name v) name) vs", "new": "find (fun v => negb (str_eqb (vi_name v) name)) vs", "claim": "variants are found by name (C24, C25)", "targets": ["Props_Encode"]}, {"id": "E19", "file": "Encode", "definition": "encode_variant", "old": "(out ++ [vi_index v])", "new": "(out ++ [vi_index v + 1])", "claim": "the index byte (C25)", "targets": ["Props_Encode"]}, {"id": "E20", "file": "Encode", "definition": "encode_struct", "old": "match src with [(None, e)] => e t1 out | _ => encode_fields src fs out end", "new": "encode_fields src fs out", "claim": "a one-element tuple is its element at a struct target (C33)", "targets": ["Props_Encode"]}, {"id": "E21", "file": "Encode", "definition": "encode_byte_array", "old": "if N.of_nat (length b) =? n then", "new": "if true then", "claim": "array lengths are enforced for 256-bit numbers (C33, C25)", "targets": ["Props_Encode"]}, {"id": "E22", "file": "Encode", "definition": "encode_bool", "old": "Some [if b then 1 else 0]", "new": "Some [if b then 0 else 1]", "claim": "booleans (C24, C25)", "targets": ["Props_Encode"]}, {"id": "E23", "file": "Encode", "definition": "encode_as_fields", "old": "| _ => (SErr XNotComposite, out)", "new": "| _ => (SOk, out)", "claim": "only composites encode as fields (C25)", "targets": ["Props_Encode"]}, {"id": "E24", "file": "Encode", "definition": "encode_composite", "old": "match (if different then do_encode c t' [] else (SErr original_error, [])) with", "new": "match (SErr original_error, []) with", "claim": "composites go through newtypes of the target (C33)", "targets": ["Props_Encode"]}, {"id": "E25", "file": "Encode", "definition": "source_fields", "old": "| Named l => map (fun kv => (Some (fst kv), snd kv)) l", "new": "| Named l => map (fun kv => (None, snd kv)) l", "claim": "names are used (C32)", "targets": ["Props_Encode"]}, {"id": "E26", "file": "Encode", "definition": "encode_in_order", "old": "| e :: es', t :: ts' => andthen (e t out) (fun out' => encode_in_order es' ts' out')", "new": "| e :: es', t :: ts' => andthen (encode_in_order es' ts' out) (fun out' => e t out')", "claim": "fields are written in order (C24, C25)", "targets": ["Props_Encode"]}, {"id": "E27", "file": "Encode", "definition": "skip_through", "old": "match fs with [(None, t')] => skip_through f t' | _ => Some t end", "new": "match fs with [(_, t')] => skip_through f t' | _ => Some t end", "claim": "named single fields are not skipped (C32, C33)", "targets": ["Props_Encode"]}, {"id": "R1", "file": "Serde", "definition": "composite_any", "old": "| Unnamed l => VSeq false (map SrcValue l)", "new": "| Unnamed l => VSeq false (rev (map SrcValue l))", "claim": "order of elements (C39, C40)", "targets": ["Props_Serde"]}, {"id": "R2", "file": "Serde", "definition": "composite_de", "old": "if Nat.eqb (clen c) n then Ok (VSeq false (map SrcValue (values c))) else Err DCustom", "new": "Ok (VSeq false (map SrcValue (values c)))", "claim": "tuples have their length (C44)", "targets": ["Props_Serde"]}, {"id": "R3", "file": "Serde", "definition": "composite_bytes", "old": "if (n <? 256)%N then Ok n else Err DCustom", "new": "Ok (n mod 256)%N", "claim": "numbers above 255 are not bytes (C54)", "targets": ["Props_Serde"]}, {"id": "R4", "file": "Serde", "definition": "prim_de", "old": "| PI128 z => if in_int sg w z then VInt sg w z else prim_any p", "new": "| PI128 z => VInt sg w (if in_int sg w z then z else 0%Z)", "claim": "numbers that do not fit are errors (C43)", "targets": ["Props_Serde"]}, {"id": "R5", "file": "Serde", "definition": "vdef_de", "old": "if str_eqb n (s2l \"Some\") && Nat.eqb (length vs) 1", "new": "if str_eqb n (s2l \"Some\") && negb (Nat.eqb (length vs) 0)", "claim": "Some has one field (C46)", "targets": ["Props_Serde"]}, {"id": "R6", "file": "Serde", "definition": "vdef_de", "old": "else if str_eqb n (s2l \"None\") && Nat.eqb (length vs) 0 then Ok VNone", "new": "else if str_eqb n (s2l \"None\") then Ok VNone", "claim": "None has no fields (C46)", "targets": ["Props_Serde"]}, {"id": "R7", "file": "Serde", "definition": "visit_map_or_bits", "old": "if str_eqb k bitvec_key then", "new": "if false then", "claim": "bit sequences are recognised (C39)", "targets": ["Props_Serde"]}, {"id": "R8", "file": "Serde", "definition": "visit_prim", "old": "| VInt true _ z => Ok (PI128 z)", "new": "| VInt true _ z => Ok (if (0 <=? z)%Z then PU128 (Z.to_N z) else PI128 z)", "claim": "signedness is kept (C39)", "targets": ["Props_Serde"]}, {"id": "R9", "file": "Serde", "definition": "to_value_sd", "old": "SNone => Ok (unnamed_variant (s2l \"None\") [])", "new": "SNone => Ok (unnamed_composite [])", "claim": "None is a variant (C46)", "targets": ["Props_Serde"]}, {"id": "R10", "file": "Serde", "definition": "to_value_sd", "old": "| SFloat => Err SECannotSerializeFloats", "new": "| SFloat => Ok (vu128 0)", "claim": "floats are rejected (C50)", "targets": ["Props_Serde"]}, {"id": "R11", "file": "Serde", "definition": "key_of", "old": "  | DPrim (PChar c) => Ok [c]\n", "new": "", "claim": "char keys are accepted (C50)", "targets": ["Props_Serde"]}, {"id": "R12", "file": "Serde", "definition": "first_ok_type", "old": "if in_int sg w z then SInt sg w z else", "new": "if in_int sg (w + 1) z then SInt sg w z else", "claim": "a number is written in a type it fits (C42)", "targets": ["Props_Serde"]}, {"id": "R13", "file": "Serde", "definition": "composite_de", "old": "| HUnit | HUnitStruct => if cis_empty c then Ok VUnit else Err DCustom", "new": "| HUnit | HUnitStruct => Ok VUnit", "claim": "unit is an empty composite (C56)", "targets": ["Props_Serde"]}, {"id": "R14", "file": "Serde", "definition": "composite_de", "old": "| HNewtypeStruct => Ok (VSeq false [SrcComposite c])", "new": "| HNewtypeStruct => Ok (VSeq false (map SrcValue (values c)))", "claim": "newtypes are read without unwrapping (C41; the repaired program round trips)", "targets": ["Props_Serde"]}, {"id": "R15", "file": "Serde", "definition": "ser_variant_with", "old": "(SStr (s2l \"name\"), SStr n); (SStr (s2l \"values\"), ser_composite_with f c)", "new": "(SStr (s2l \"values\"), ser_composite_with f c)", "claim": "variants serialise with their name (C42, C52)", "targets": ["Props_Serde"]}, {"id": "R16", "file": "Serde", "definition": "variant_de", "old": "| HAny | HEnum => Ok (VEnum n c)", "new": "| HAny | HEnum => Ok (composite_any c)", "claim": "variants are read as enums (C57, C39)", "targets": ["Props_Serde"]}, {"id": "R17", "file": "Serde", "definition": "ser_prim", "old": "PU256 b => STuple (map (fun x => SInt false 8 (Z.of_N x)) b)", "new": "PU256 b => STuple (map (fun x => SInt false 8 (Z.of_N x)) (rev b))", "claim": "byte order of 256-bit numbers (C42)", "targets": ["Props_Serde"]}, {"id": "R18", "file": "Serde", "definition": "visit_prim", "old": "VBytes b => if Nat.eqb (length b) 32 then Ok (PU256 b) else Err DType", "new": "VBytes b => Ok (PU256 b)", "claim": "only 32 bytes are a number (C39)", "targets": ["Props_Serde"]}, {"id": "R19", "file": "Serde", "definition": "to_value_sd", "old": "| SInt false _ z => Ok (vu128 (Z.to_N z))", "new": "| SInt false _ z => Ok (vi128 z)", "claim": "unsigned stays unsigned (C40, C42)", "targets": ["Props_Serde"]}, {"id": "R20", "file": "Serde", "definition": "bits_de", "old": "| HNewtypeStruct | HTuple _ | HTupleStruct _ | HUnit | HUnitStruct | HEnum | HBytes | HSeq | HMap => Err DCustom", "new": "| HNewtypeStruct | HTuple _ | HTupleStruct _ | HUnit | HUnitStruct | HEnum | HBytes | HMap => Err DCustom", "claim": "bit sequences cannot be read as sequences (C55; the changed program gives a map)", "targets": ["Props_Serde"]}, {"id": "R21", "file": "Serde", "definition": "composite_de", "old": "| HSeq => Ok (VSeq false (map SrcValue (values c)))", "new": "| HSeq => match c with Unnamed l => Ok (VSeq false (map SrcValue l)) | Named _ => Err DCustom end", "claim": "named fields can be read as a sequence (C54)", "targets": ["Props_Serde"]}, {"id": "R22", "file": "Serde", "definition": "prim_any", "old": "| PI256 b => VBytes b", "new": "| PI256 b => VBytes (rev b)", "claim": "256-bit numbers are read as their bytes (C39)", "targets": ["Props_Serde"]}, {"id": "R23", "file": "Serde", "definition": "visit_composite", "old": "| VMap l => rmap Named (mapM (fun kv => rmap (pair (fst kv)) (rec (snd kv))) l)", "new": "| VMap l => rmap (fun l => Unnamed (map snd l)) (mapM (fun kv => rmap (pair (fst kv)) (rec (snd kv))) l)", "claim": "a Composite keeps its field names (C39)", "targets": ["Props_Serde"]}, {"id": "M1", "file": "Macro", "definition": "after_value", "old": "| TComma :: r => k (acc ++ [v]) r", "new": "| TComma :: r => k (v :: acc) r", "claim": "elements keep their order (C47)", "targets": ["Props_Macro"]}, {"id": "M2", "file": "Macro", "definition": "after_value", "old": "    | _ :: _ => None                                  (* 144-147: compile_error! *)", "new": "    | _ :: r => k (acc ++ [v]) r", "claim": "a missing comma is an error (C47)", "targets": ["Props_Macro"]}, {"id": "M3", "file": "Macro", "definition": "unnamed_rules", "old": "        | TGroup Brace m :: r => next (EMac [TGroup Brace m]) r                              (* 128-130 *)\n", "new": "", "claim": "nested structs in tuples (C47)", "targets": ["Props_Macro"]}, {"id": "M4", "file": "Macro", "definition": "named_rules", "old": "| [] => None                                                                 (* 225-227 *)", "new": "| [] => Some acc", "claim": "a key without a value is an error (C47)", "targets": ["Props_Macro"]}, {"id": "M5", "file": "Macro", "definition": "named_rules", "old": "          | _, TComma :: _ => None                                                           (* 235-237 *)\n", "new": "", "claim": "no commas in keys (C47)", "targets": ["Props_Macro"]}, {"id": "M6", "file": "Macro", "definition": "after_entry", "old": "| [] => done (acc ++ [(key_name key, v)])            (* 182-187 *)", "new": "| [] => done acc", "claim": "the last entry is kept (C47)", "targets": ["Props_Macro"]}, {"id": "M7", "file": "Macro", "definition": "expand", "old": "| [TIdent n; TGroup Paren l] => option_map (unnamed_variant n)", "new": "| [TIdent n; TGroup Paren l] => option_map (unnamed_variant [])", "claim": "variant names (C47)", "targets": ["Props_Macro"]}, {"id": "M8", "file": "Macro", "definition": "expand", "old": "| [TGroup Brace []] => Some (named_composite [])", "new": "| [TGroup Brace []] => Some (unnamed_composite [])", "claim": "{} is a named composite (C47)", "targets": ["Props_Macro"]}, {"id": "M9", "file": "Macro", "definition": "value_rules", "old": "        | POk e [] => Some (next (EUser e) [])                                               (* 215-217 *)\n", "new": "", "claim": "the last value needs no comma (C47)", "targets": ["Props_Macro"]}, {"id": "M10", "file": "Macro", "definition": "value_from", "old": "| RVec l => Val (DComposite (Unnamed (map value_from l))) tt", "new": "| RVec l => Val (DComposite (Unnamed (rev (map value_from l)))) tt", "claim": "vectors keep their order (C58)", "targets": ["Props_Macro"]}, {"id": "M11", "file": "Macro", "definition": "value_from", "old": "| RInt _ z => Val (DPrim (from_int z)) tt", "new": "| RInt _ z => Val (DPrim (from_uint z)) tt", "claim": "signed integers stay signed (C58)", "targets": ["Props_Macro"]}]