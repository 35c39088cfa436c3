[{"id": "NA1", "file": "Serde", "definition": "composite_de", "old": "    | HSeq => Ok (VSeq false (map SrcValue (values c)))                                  (* 427-438 *)\n", "new": "    | HSeq | HStruct => Ok (VSeq false (map SrcValue (values c)))\n", "claim": "fields of structs are found in any order (C111): structs are read by position", "targets": ["Props_Shuffled"]}, {"id": "NA2", "file": "Serde", "definition": "struct_entries", "old": "        | None => bind (de_ignored s) (fun _ => struct_entries fs l' acc)", "new": "        | None => bind (de_ignored s) (fun _ => Ok acc)", "claim": "fields of structs are found in any order (C111): reading stops at the first unknown field", "targets": ["Props_Shuffled"]}, {"id": "NA3", "file": "Serde", "definition": "visit_enum", "old": "            rmap (fun l => XEnum n (VsStruct l)) (visit_struct fs m (composite_any c))", "new": "            rmap (fun l => XEnum n (VsStruct l)) (visit_struct fs m (VSeq false (map SrcValue (values c))))", "claim": "fields of enum variants are found in any order (C111): read by position", "targets": ["Props_Shuffled"]}, {"id": "NA4", "file": "Serde", "definition": "map_insert", "old": "      if str_ltb k k' then (k, x) :: l\n", "new": "      if str_ltb k k' then (k', x') :: map_insert k x l'\n", "claim": "maps read back the same in any order (C111): entries are kept in the order of reading", "targets": ["Props_Shuffled"]}, {"id": "NA5", "file": "Serde", "definition": "composite_any", "old": "    | Named l => VMap (map (fun kv => (fst kv, SrcValue (snd kv))) l)", "new": "    | Named l => VMap (map (fun kv => (fst kv, SrcValue (snd kv))) (tl l))", "claim": "fields of structs are found in any order (C111): the first entry is skipped", "targets": ["Props_Shuffled"]}, {"id": "NA7", "file": "Serde", "definition": "variant_de", "old": "    | HNewtypeStruct => Ok (VSeq false [SrcVariant n c])                                  (* 617-626 *)", "new": "    | HNewtypeStruct => Ok (VSeq false [SrcComposite c])", "claim": "enums inside newtypes read back (C111): the variant name is dropped", "targets": ["Props_Shuffled"]}]