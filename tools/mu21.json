[{"id": "ED1", "file": "Decode", "definition": "decode", "old": "to_unnamed (decode f false) t (repeat t' (N.to_nat (fst x))) (snd x))", "new": "to_unnamed (decode f false) t' (repeat t' (N.to_nat (fst x))) (snd x))", "claim": "a part carries the id of the type of its place (C102)", "targets": ["Props_Edit"]}, {"id": "ED2", "file": "Encode", "definition": "do_encode", "old": "(out ++ compact_encode (N.of_nat (clen c) mod 2 ^ 32))", "new": "(out ++ compact_encode (N.of_nat (clen c) mod 2 ^ 30))", "claim": "the length in front of a sequence (C102)", "targets": ["Props_Edit"]}, {"id": "ED3", "file": "Decode", "definition": "decode", "old": "to_unnamed (decode f false) t (repeat t' (N.to_nat n)) bs", "new": "to_unnamed (decode f false) t (rev (repeat t' (N.to_nat n))) (firstn (N.to_nat n) bs)", "claim": "what is behind an array stays (C102)", "targets": ["Props_Edit"]}, {"id": "ED4", "file": "Encode", "definition": "encode_variant", "old": "(vi_fields v) (out ++ [vi_index v])", "new": "(rev (vi_fields v)) (out ++ [vi_index v])", "claim": "the fields of a variant keep their stretches in order (C102)", "targets": ["Props_Edit"]}, {"id": "ED5", "file": "Decode", "definition": "decode_items", "old": "Ok (fst x :: fst y, snd y)))\n    end.\n\n  (** decode.rs:369", "new": "Ok (fst y ++ [fst x], snd y)))\n    end.\n\n  (** decode.rs:369", "claim": "elements are in the order of their bytes (C102)", "targets": ["Props_Edit"]}, {"id": "ED6", "file": "Decode", "definition": "decode_named", "old": "Ok ((match name with Some n => n | None => [] end, fst x) :: fst y, snd y)", "new": "Ok (fst y ++ [(match name with Some n => n | None => [] end, fst x)], snd y)", "claim": "fields are in the order of their bytes (C102)", "targets": ["Props_Edit"]}]