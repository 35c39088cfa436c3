[{"id": "W1", "file": "Encode", "definition": "find_single", "old": "| ResTy (TArray t' n) => if n =? 1 then find_single f t' true", "new": "| ResTy (TArray t' n) => if n <=? 1 then find_single f t' true", "claim": "only arrays of length one are wrappers", "targets": ["Props_Writes"]}, {"id": "W2", "file": "Encode", "definition": "skip_through", "old": "| ResTy (TComposite fs) => match fs with [(None, t')] => skip_through f t' | _ => Some t end", "new": "| ResTy (TComposite fs) => match fs with [(_, t')] => skip_through f t' | _ => Some t end", "claim": "a named one-field struct is not skipped for composites", "targets": ["Props_Writes"]}, {"id": "W3", "file": "Encode", "definition": "in_unsigned", "old": "((0 <=? z) && (z <? 2 ^ Z.of_N (wbits w)))%Z", "new": "((0 <=? z) && (z <=? 2 ^ Z.of_N (wbits w)))%Z", "claim": "upper bound of unsigned", "targets": ["Props_Writes"]}, {"id": "W4", "file": "Encode", "definition": "in_signed", "old": "(- 2 ^ (Z.of_N (wbits w) - 1) <=? z)", "new": "(- 2 ^ (Z.of_N (wbits w) - 1) <? z)", "claim": "the least signed number fits", "targets": ["Props_Writes"]}, {"id": "W5", "file": "Encode", "definition": "encode_char", "old": "| _ => encode_number (Z.of_N c) t out", "new": "| ResTy (TPrim (PtU W32)) => encode_number (Z.of_N c) t out | _ => (SErr XWrongShape, out)", "claim": "a char is written at any integer type it fits", "targets": ["Props_Writes"]}, {"id": "W6", "file": "Encode", "definition": "encode_str", "old": "N.of_nat (length (utf8 s)) mod 2 ^ 32) ++ utf8 s", "new": "N.of_nat (length s) mod 2 ^ 32) ++ utf8 s", "claim": "the prefix of a string counts bytes", "targets": ["Props_Writes"]}, {"id": "W7", "file": "Encode", "definition": "encode_byte_array", "old": "| ResTy (TComposite fs) => match fs with [fd] => encode_byte_array f b (snd fd) out | _ => (SErr XWrongShape, out) end", "new": "| ResTy (TComposite fs) => match fs with [(None, t')] => encode_byte_array f b t' out | _ => (SErr XWrongShape, out) end", "claim": "256-bit numbers look through named one-field structs", "targets": ["Props_Writes"]}, {"id": "W8", "file": "Encode", "definition": "encode_byte_array", "old": "if N.of_nat (length b) =? n then encode_all (map (fun x => encode_number (Z.of_N x)) b) t' out else (SErr XWrongLength, out)", "new": "encode_all (map (fun x => encode_number (Z.of_N x)) b) t' out", "claim": "256-bit numbers need an array of 32", "targets": ["Props_Writes"]}, {"id": "W9", "file": "Encode", "definition": "encode_byte_array", "old": "(out ++ compact_encode (N.of_nat (length b) mod 2 ^ 32))", "new": "out", "claim": "256-bit numbers at a sequence have a prefix", "targets": ["Props_Writes"]}, {"id": "W10", "file": "Encode", "definition": "lookup_last", "old": "| f :: src' => match lookup_last name src' with\n                   | Some e => Some e\n                   | None => if str_eqb (key_of f) name then Some (snd f) else None\n                   end", "new": "| f :: src' => if str_eqb (key_of f) name then Some (snd f) else lookup_last name src'", "claim": "the last field with a name is written", "targets": ["Props_Writes"]}, {"id": "W11", "file": "Encode", "definition": "encode_fields", "old": "if existsb named_field fs && existsb named_field src then", "new": "if forallb named_field fs && existsb named_field src then", "claim": "by name as soon as one field of the type has a name", "targets": ["Props_Writes"]}, {"id": "W12", "file": "Encode", "definition": "encode_fields", "old": "else if (length fs =? length src)%nat then", "new": "else if (length fs <=? length src)%nat then", "claim": "by position the numbers must agree", "targets": ["Props_Writes"]}, {"id": "W13", "file": "Encode", "definition": "encode_struct", "old": "| ResTy (TComposite fs) => match src with [(None, e)] => e t1 out | _ => encode_fields src fs out end", "new": "| ResTy (TComposite fs) => encode_fields src fs out", "claim": "an unnamed one-value composite at a struct is its value", "targets": ["Props_Writes"]}, {"id": "W14", "file": "Encode", "definition": "encode_struct", "old": "| ResTy (TTuple ts) => match src with [(_, e)] => e t1 out", "new": "| ResTy (TTuple ts) => match src with [(None, e)] => e t1 out", "claim": "a one-value composite at a tuple is its value, named or not", "targets": ["Props_Writes"]}, {"id": "W15", "file": "Encode", "definition": "encode_struct", "old": "| _ => match src with [(_, e)] => e t1 out | _ => (SErr XWrongShape, out) end", "new": "| _ => (SErr XWrongShape, out)", "claim": "a one-value composite goes to what is behind unnamed wrappers", "targets": ["Props_Writes"]}, {"id": "W16", "file": "Encode", "definition": "bit_of", "old": "if (n =? 0) || (n =? 1) then Some (n =? 1) else None", "new": "Some (negb (n =? 0))", "claim": "only 0 and 1 are bits", "targets": ["Props_Writes"]}, {"id": "W17", "file": "Encode", "definition": "do_encode", "old": "N.of_nat (clen c) =? n then", "new": "N.of_nat (clen c) <=? n then", "claim": "array lengths agree", "targets": ["Props_Writes"]}, {"id": "W18", "file": "Encode", "definition": "do_encode", "old": "| _ => match values c with [x] => snd x t out | _ => (SErr XWrongShape, out) end\n      end.", "new": "| _ => (SErr XWrongShape, out)\n      end.", "claim": "a one-value composite at a primitive (equivalent: the last attempt of encode_composite makes up for it)", "targets": ["Props_Writes"]}, {"id": "W19", "file": "Encode", "definition": "encode_composite", "old": "(if different then do_encode c t' [] else (SErr original_error, []))", "new": "(SErr original_error, [])", "claim": "a composite is tried inside the wrappers", "targets": ["Props_Writes"]}, {"id": "W20", "file": "Encode", "definition": "encode_composite", "old": "| [x] => match snd x t' [] with", "new": "| [x] => match snd x t [] with", "claim": "the only value is tried inside the wrappers", "targets": ["Props_Writes"]}, {"id": "W21", "file": "Encode", "definition": "encode_variant", "old": "find (fun v => str_eqb (vi_name v) name) vs with", "new": "find (fun v => str_eqb (vi_name v) name) (rev vs) with", "claim": "the first variant with the name", "targets": ["Props_Writes"]}, {"id": "W22", "file": "Encode", "definition": "encode_variant", "old": "(out ++ [vi_index v])", "new": "out", "claim": "the index is written", "targets": ["Props_Writes"]}, {"id": "W23", "file": "Encode", "definition": "encode_composite", "old": "match do_encode c t [] with\n      | (SOk, tmp) => (SOk, out ++ tmp)", "new": "match do_encode c t out with\n      | (SOk, tmp) => (SOk, out ++ tmp)", "claim": "what was in the buffer is not written twice", "targets": ["Props_Writes"]}, {"id": "W24", "file": "Encode", "definition": "encode_number", "old": "then (SOk, out ++ compact_encode (Z.to_N z))", "new": "then (SOk, out ++ le_bytes (wbytes w) (Z.to_N z))", "claim": "compact", "targets": ["Props_Writes"]}, {"id": "W25", "file": "Encode", "definition": "encode_number", "old": "match find_single F t2 false with\n            | None => (SHang, out)\n            | Some (t3, _) =>", "new": "match Some (t2, true) with\n            | None => (SHang, out)\n            | Some (t3, _) =>", "claim": "compact looks through wrappers inside", "targets": ["Props_Writes"]}, {"id": "W26", "file": "Encode", "definition": "encode_as_fields", "old": "| DComposite c => encode_composite_as_fields c fs out\n", "new": "| DComposite c | DVariant _ c => encode_composite_as_fields c fs out\n", "claim": "only composites are fields", "targets": ["Props_Writes"]}, {"id": "W27", "file": "Encode", "definition": "key_of", "old": "match fst f with Some n => n | None => [] end", "new": "match fst f with Some n => n | None => s2l \"_\" end", "claim": "an unnamed field of a type goes by the empty name", "targets": ["Props_Writes"]}, {"id": "W28", "file": "Encode", "definition": "encode_by_name", "old": "| None => (SErr XMissingField, out)", "new": "| None => encode_by_name src fs' out", "claim": "a missing field is an error", "targets": ["Props_Writes"]}]