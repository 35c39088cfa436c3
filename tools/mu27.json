[{"id": "MZ1", "file": "Serde", "definition": "ser_prim", "old": "  | PI128 z => first_ok_type true [8; 16; 32; 64; 128]%N z", "new": "  | PI128 z => first_ok_type false [8; 16; 32; 64; 128]%N z", "claim": "negative integers survive JSON (C109): written as unsigned", "targets": ["Props_Json", "Props_Rearranged"]}, {"id": "MZ2", "file": "Serde", "definition": "ser_bits", "old": "Definition ser_bits (b : list bool) : sd := SMap [(SStr bitvec_key, SSeq (map SBool b))].", "new": "Definition ser_bits (b : list bool) : sd := SMap [(SStr bitvec_key, SSeq (map SBool (rev b)))].", "claim": "bit sequences survive JSON (C109): bits written backwards", "targets": ["Props_Json", "Props_Rearranged"]}, {"id": "MZ3", "file": "Serde", "definition": "ser_composite_with", "old": "  | Unnamed l => SSeq (map f l)", "new": "  | Unnamed [x] => f x\n  | Unnamed l => SSeq (map f l)", "claim": "lists survive JSON (C109): a list of one is written without the brackets", "targets": ["Props_Json", "Props_Rearranged"]}, {"id": "MZ4", "file": "Serde", "definition": "ser_variant_with", "old": "  SMap [(SStr (s2l \"name\"), SStr n); (SStr (s2l \"values\"), ser_composite_with f c)].", "new": "  SMap [(SStr (s2l \"name\"), SStr n); (SStr (s2l \"fields\"), ser_composite_with f c)].", "claim": "a Variant is read from its JSON (C109): another key", "targets": ["Props_Json"]}, {"id": "MZ5", "file": "Serde", "definition": "visit_map_or_bits", "old": "          rmap DBits (bind (deserialize s HSeq) (visit_vec de_bool))", "new": "          rmap (fun b => DBits (rev b)) (bind (deserialize s HSeq) (visit_vec de_bool))", "claim": "bit sequences survive JSON (C109): bits read backwards", "targets": ["Props_Json", "Props_Rearranged"]}, {"id": "MZ6", "file": "Encode", "definition": "encode_fields", "old": "    if existsb named_field fs && existsb named_field src then encode_by_name src fs out", "new": "    if existsb named_field fs && existsb named_field src && negb (length fs =? length src)%nat then encode_by_name src fs out", "claim": "named fields in any order (C110): with the right number of entries they are taken in order", "targets": ["Props_Rearranged"]}, {"id": "MZ7", "file": "Encode", "definition": "encode_variant", "old": "              | Some v => encode_fields (source_fields (composite_map snd c)) (vi_fields v) (out ++ [vi_index v])", "new": "              | Some v => encode_fields (map (fun x => (None, snd x)) (source_fields (composite_map snd c))) (vi_fields v) (out ++ [vi_index v])", "claim": "named fields of variants in any order (C110): variant fields are taken in order", "targets": ["Props_Rearranged"]}, {"id": "MZ8", "file": "Encode", "definition": "encode_struct", "old": "        | ResTy (TComposite fs) => match src with [(None, e)] => e t1 out | _ => encode_fields src fs out end", "new": "        | ResTy (TComposite fs) => match src with [(None, e)] => e t1 out | (Some k, e) :: _ => match fs with (Some k', _) :: _ => if str_eqb k k' then encode_in_order (map snd src) (map snd fs) out else encode_fields src fs out | _ => encode_fields src fs out end | _ => encode_fields src fs out end", "claim": "named fields in any order (C110): if the first is in its place the others are taken in order", "targets": ["Props_Rearranged"]}, {"id": "MZ9", "file": "Encode", "definition": "bit_of", "old": "          | Some n => if (n =? 0) || (n =? 1) then Some (n =? 1) else None", "new": "          | Some n => if (n =? 0) || (n =? 1) then Some (n =? 0) else None", "claim": "bit sequences as lists of 0 and 1 (C110): the numbers are taken the wrong way round", "targets": ["Props_Rearranged"]}, {"id": "MZ10", "file": "Encode", "definition": "bit_of", "old": "                    | Some z => if ((z =? 0) || (z =? 1))%Z then Some (z =? 1)%Z else None", "new": "                    | Some z => None", "claim": "bit sequences as lists of 0 and 1 (C110): signed numbers are not taken as bits", "targets": ["Props_Rearranged"]}, {"id": "MZ11", "file": "Encode", "definition": "encode_primitive", "old": "    | PI128 z => encode_number z", "new": "    | PI128 z => if (z <? 0)%Z then encode_number z else (fun t out => (SErr XWrongShape, out))", "claim": "integers of the other sign encode (C110): positive signed ones are refused", "targets": ["Props_Rearranged"]}, {"id": "MZ12", "file": "Encode", "definition": "lookup_last", "old": "    | f :: src' => match lookup_last name src' with\n                   | Some e => Some e\n                   | None => if str_eqb (key_of f) name then Some (snd f) else None\n                   end", "new": "    | f :: src' => if str_eqb (key_of f) name then Some (snd f) else match src' with [] => None | _ :: src'' => lookup_last name src'' end", "claim": "named fields in any order (C110): every other entry is skipped in the search", "targets": ["Props_Rearranged"]}, {"id": "MZ13", "file": "Serde", "definition": "visit_map_or_bits", "old": "          Ok (DComposite (Named ((k, v) :: vs)))))", "new": "          Ok (DComposite (Named (vs ++ [(k, v)])))))", "claim": "what is read from JSON is the value (C109): the first entry is put last", "targets": ["Props_Json"]}, {"id": "MZ14", "file": "Serde", "definition": "visit_prim", "old": "    | VInt true _ z => Ok (PI128 z)", "new": "    | VInt true _ z => Ok (PU128 (Z.to_N (- z)))", "claim": "negative integers survive JSON (C109): the sign is lost", "targets": ["Props_Json", "Props_Rearranged"]}]