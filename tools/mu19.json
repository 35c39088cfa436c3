[{"id": "GR1", "file": "Decode", "definition": "decode", "old": "match find (fun v => vi_index v =? idx) vs with", "new": "match nth_error vs (N.to_nat idx) with", "claim": "variants are found by index, not by place (C100)", "targets": ["Props_Growth"]}, {"id": "GR2", "file": "Decode", "definition": "decode", "old": "match find (fun v => vi_index v =? idx) vs with", "new": "match find (fun v => (vi_index v =? idx) || (length vs =? 1)%nat) vs with", "claim": "an unknown index is refused even in an enum of one variant (C100)", "targets": ["Props_Growth"]}, {"id": "GR3", "file": "Encode", "definition": "encode_variant", "old": "(vi_fields v) (out ++ [vi_index v])", "new": "(vi_fields v) (out ++ [vi_index v + N.of_nat (length vs) - 1])", "claim": "the index written is that of the variant (C100)", "targets": ["Props_Growth"]}, {"id": "GR4", "file": "Encode", "definition": "find_single", "old": "        | ResTy (TArray t' n) => if n =? 1", "new": "        | ResTy (TVariant [v]) => match vi_fields v with [fd] => find_single f (snd fd) true | _ => Some (t, changed) end\n        | ResTy (TArray t' n) => if n =? 1", "claim": "enums are not looked through (C100)", "targets": ["Props_Growth"]}, {"id": "GR5", "file": "Encode", "definition": "encode_variant", "old": "              | None => (SErr XNoVariant, out)\n              | Some v", "new": "              | None => match vs with [v] => encode_fields (source_fields (composite_map snd c)) (vi_fields v) (out ++ [vi_index v]) | _ => (SErr XNoVariant, out) end\n              | Some v", "claim": "an unknown variant is refused even if there is only one (C100)", "targets": ["Props_Growth"]}, {"id": "GR6", "file": "Encode", "definition": "encode_variant", "old": "match find (fun v => str_eqb (vi_name v) name) vs with", "new": "match find (fun v => (length (vi_fields v) =? clen c)%nat) vs with", "claim": "variants are found by name (C100)", "targets": ["Props_Growth"]}, {"id": "GR7", "file": "Decode", "definition": "decode", "old": "                     | None => Err EVariantNotFound", "new": "                     | None => Err ENotEnough", "claim": "what the old registry says about new data (C100)", "targets": ["Props_Growth"]}, {"id": "GR8", "file": "Encode", "definition": "do_encode", "old": "      | _ => match values c with [x] => snd x t out | _ => (SErr XWrongShape, out) end\n      end.", "new": "      | ResTy (TVariant [_]) => (SErr XWrongShape, out)\n      | _ => match values c with [x] => snd x t out | _ => (SErr XWrongShape, out) end\n      end.", "claim": "errors do not depend on how many variants there are (C100)", "targets": ["Props_Growth"]}]