[{"id": "ST1", "file": "Scale", "definition": "take", "old": "if (length bs <? k)%nat then Err ENotEnough else Ok (firstn k bs, skipn k bs)", "new": "Ok (firstn k bs, skipn k bs)", "claim": "input that ends too early is refused (C101)", "targets": ["Props_Streams"]}, {"id": "ST2", "file": "Scale", "definition": "compact_decode", "old": "  | [] => Err ECodec\n  | p :: r =>", "new": "  | [] => Ok (0, [])\n  | p :: r =>", "claim": "a missing length is not zero (C101)", "targets": ["Props_Streams"]}, {"id": "ST3", "file": "Decode", "definition": "decode", "old": "                 | [] => Err ENotEnough\n                 | idx", "new": "                 | [] => Err EVariantNotFound\n                 | idx", "claim": "a missing variant index is reported as missing input (C101)", "targets": ["Props_Streams"]}, {"id": "ST4", "file": "Trace", "definition": "trace", "old": "                 | [] => Err (FromDecode (CDecode ENotEnough))\n", "new": "                 | [] => Err (FromDecode (CDecode EVariantNotFound))\n", "claim": "a missing variant index is reported as missing input by the tracing decoder (C101)", "targets": ["Props_Streams"]}, {"id": "ST5", "file": "Scale", "definition": "read_prim", "old": "bind (compact_decode lenbits bs) (fun x => bind (take (N.to_nat (fst x)) (snd x)) (fun y =>", "new": "bind (compact_decode lenbits bs) (fun x => bind (if (length (snd x) <? N.to_nat (fst x))%nat then Err EInvalidStr else take (N.to_nat (fst x)) (snd x)) (fun y =>", "claim": "a string cut short is reported as missing input (C101)", "targets": ["Props_Streams"]}, {"id": "ST6", "file": "Scale", "definition": "decode_bits", "old": "    if maxbits <? fst x then Err EBits", "new": "    if (maxbits <? fst x) || (length (snd x) <? words_for st len * bsbytes st)%nat then Err EBits", "claim": "bits cut short are reported as missing input (C101)", "targets": ["Props_Streams"]}, {"id": "ST7", "file": "Scale", "definition": "read_prim", "old": "| PtU256 => bind (take 32 bs)", "new": "| PtU256 => bind (if (length bs <? 32)%nat then Ok (bs ++ repeat 0 (32 - length bs), []) else take 32 bs)", "claim": "a number cut short is refused (C101)", "targets": ["Props_Streams"]}, {"id": "ST8", "file": "Decode", "definition": "decode", "old": "bind (compact_decode (x_len X) bs) (fun x => to_unnamed (decode f false) t (repeat t' (N.to_nat (fst x))) (snd x))", "new": "bind (compact_decode (x_len X) bs) (fun x => to_unnamed (decode f false) t (repeat t' (Nat.min (length (snd x)) (N.to_nat (fst x)))) (snd x))", "claim": "a sequence cut short is refused (C101)", "targets": ["Props_Streams"]}, {"id": "ST9", "file": "Trace", "definition": "unnamed_loop", "old": "          match item (path ++ [SIndex idx]) t bs with", "new": "          match item (path ++ [SIndex (length bs)]) t bs with", "claim": "where the tracing decoder stopped does not depend on what follows (C101)", "targets": ["Props_Streams"]}, {"id": "ST10", "file": "Decode", "definition": "visit_composite", "old": "else bind (decode_items dec (map snd fs) bs) (fun x => Ok (Unnamed (fst x), snd x)).", "new": "else bind (decode_items dec (map snd fs) bs) (fun x => Ok (Unnamed (fst x), match fs with [] => [] | _ => snd x end)).", "claim": "reading an empty struct leaves the rest of the stream (C101)", "targets": ["Props_Streams"]}, {"id": "ST11", "file": "Encode", "definition": "encode_variant", "old": "(vi_fields v) (out ++ [vi_index v])", "new": "(vi_fields v) (match out with [] => [vi_index v] | _ => [vi_index v] ++ out end)", "claim": "values are put behind what is there (C101)", "targets": ["Props_Streams"]}, {"id": "ST12", "file": "Parse", "definition": "from_str", "old": "parse_custom U [] s", "new": "(let (r, rest) := parse_custom U [] s in (r, match rest with 10 :: rest' => rest' | _ => rest end))", "claim": "the line end is left in the text (C101)", "targets": ["Props_Streams"]}]