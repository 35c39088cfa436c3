[{"id": "NB1", "file": "Value", "definition": "at_composite", "old": "      | Named l => option_map snd (nth_error l n)", "new": "      | Named l => option_map snd (nth_error (rev l) n)", "claim": "parts are found by position (C112): named fields are counted from the end", "targets": ["Props_Places"]}, {"id": "NB2", "file": "Value", "definition": "find_field", "old": "  | (n, v) :: l' => if str_eqb s n then Some v else find_field s l'", "new": "  | (n, v) :: l' => match find_field s l' with Some w => Some w | None => if str_eqb s n then Some v else None end", "claim": "at finds the first field of a name (C112): the last one is found", "targets": ["Props_Places"]}, {"id": "NB3", "file": "Serde", "definition": "to_value_sd", "old": "  | SNewtypeStruct x => bind (to_value_sd x) (fun v => Ok (unnamed_composite [v]))", "new": "  | SNewtypeStruct x => bind (to_value_sd x) (fun v => Ok v)", "claim": "the part of a newtype is at index 0 (C112): newtypes are transparent", "targets": ["Props_Places"]}, {"id": "NB4", "file": "Serde", "definition": "to_value_sd", "old": "  | SNewtypeVariant n x => bind (to_value_sd x) (fun v => Ok (unnamed_variant n [v]))", "new": "  | SNewtypeVariant n x => bind (to_value_sd x) (fun v => Ok (unnamed_variant n [unnamed_composite [v]]))", "claim": "the part of a newtype variant is at index 0 (C112): it is wrapped once more", "targets": ["Props_Places"]}, {"id": "NB5", "file": "Serde", "definition": "to_value_sd", "old": "  | SSome x => bind (to_value_sd x) (fun v => Ok (unnamed_variant (s2l \"Some\") [v]))", "new": "  | SSome x => bind (to_value_sd x) (fun v => Ok v)", "claim": "the part of Some is at index 0 (C112): options are transparent", "targets": ["Props_Places"]}, {"id": "NB6", "file": "Value", "definition": "at_composite", "old": "      | Unnamed l => nth_error l n", "new": "      | Unnamed l => nth_error l (Nat.pred n)", "claim": "parts are found by position (C112): indexes count from one", "targets": ["Props_Places"]}, {"id": "NB7", "file": "Serde", "definition": "to_value_sd", "old": "  | STupleVariant n l => rmap (unnamed_variant n) (mapM to_value_sd l)", "new": "  | STupleVariant n l => rmap (fun l => unnamed_variant n (rev l)) (mapM to_value_sd l)", "claim": "parts of tuple variants are at their index (C112): they are written in reverse order", "targets": ["Props_Places"]}]