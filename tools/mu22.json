[{"id": "MG1", "file": "Encode", "definition": "encode_fields", "old": "if existsb named_field fs && existsb named_field src then encode_by_name src fs out", "new": "if existsb named_field fs && existsb named_field src && (length fs =? length src)%nat then encode_by_name src fs out", "claim": "fields may be left out (C103)", "targets": ["Props_Migrate"]}, {"id": "MG2", "file": "Encode", "definition": "encode_fields", "old": "if existsb named_field fs && existsb named_field src then", "new": "if false then", "claim": "fields go by their names (C103)", "targets": ["Props_Migrate"]}, {"id": "MG3", "file": "Encode", "definition": "encode_variant", "old": "find (fun v => str_eqb (vi_name v) name) vs", "new": "find (fun v => str_eqb (vi_name v) name) (firstn 1 vs)", "claim": "every variant finds its name (C103)", "targets": ["Props_Migrate"]}, {"id": "MG4", "file": "Encode", "definition": "encode_number", "old": "| ResTy (TCompact t2) =>\n            match find_single F t2 false with", "new": "| ResTy (TCompact t2) =>\n            match Some (t2, false) with", "claim": "compact of a wrapped integer takes integers (C103)", "targets": ["Props_Migrate"]}, {"id": "MG5", "file": "Encode", "definition": "do_encode", "old": "if N.of_nat (clen c) =? n then encode_all (map snd (values c)) t' out", "new": "if N.of_nat (clen c) <? n then encode_all (map snd (values c)) t' out", "claim": "arrays of the right length are accepted (C103)", "targets": ["Props_Migrate"]}, {"id": "MG6", "file": "Encode", "definition": "encode_struct", "old": "ResTy (TComposite fs) => match src with [(None, e)] => e t1 out |", "new": "ResTy (TComposite fs) => match src with [(_, e)] => e t1 out |", "claim": "a struct with one named field keeps its field (C103)", "targets": ["Props_Migrate"]}, {"id": "MG7", "file": "Encode", "definition": "encode_struct", "old": "| _ => match src with [(_, e)] => e t1 out | _ => (SErr XWrongShape, out) end", "new": "| _ => (SErr XWrongShape, out)", "claim": "the content of a newtype goes into newtypes (C103)", "targets": ["Props_Migrate"]}]