[{"id": "TV1", "file": "Serde", "definition": "key_of", "old": "| DPrim (PChar c) => Ok [c]\n", "new": "", "claim": "char keys are written (C94)", "targets": ["Props_ToValue", "Props_Convert"]}, {"id": "TV2", "file": "Serde", "definition": "to_value_sd", "old": "| SInt true _ z => Ok (vi128 z) ", "new": "| SInt true _ z => Ok (if (0 <=? z)%Z then vu128 (Z.to_N z) else vi128 z) ", "claim": "signed integers keep their sign kind (C94)", "targets": ["Props_ToValue", "Props_Convert"]}, {"id": "TV3", "file": "Serde", "definition": "to_value_sd", "old": "| SBytes b => Ok (unnamed_composite (map vu128 b)) ", "new": "| SBytes b => Ok (unnamed_composite (map vu128 (rev b))) ", "claim": "bytes in order (C94)", "targets": ["Props_ToValue", "Props_Convert"]}, {"id": "TV4", "file": "Serde", "definition": "to_value_sd", "old": "| SNone => Ok (unnamed_variant (s2l \"None\") [])", "new": "| SNone => Ok (unnamed_composite [])", "claim": "None is a variant (C94)", "targets": ["Props_ToValue", "Props_Convert"]}, {"id": "TV5", "file": "Serde", "definition": "to_value_sd", "old": "(fun v => Ok (unnamed_variant (s2l \"Some\") [v]))", "new": "(fun v => Ok v)", "claim": "Some is a variant (C94)", "targets": ["Props_ToValue", "Props_Convert"]}, {"id": "TV6", "file": "Serde", "definition": "to_value_sd", "old": "| SNewtypeStruct x => bind (to_value_sd x) (fun v => Ok (unnamed_composite [v]))", "new": "| SNewtypeStruct x => to_value_sd x", "claim": "newtypes are composites with one field (C94)", "targets": ["Props_ToValue", "Props_Convert"]}, {"id": "TV7", "file": "Serde", "definition": "to_value_sd", "old": "| SUnitVariant n => Ok (unnamed_variant n [])", "new": "| SUnitVariant n => Ok (vstring n)", "claim": "unit variants are variants (C94)", "targets": ["Props_ToValue", "Props_Convert"]}, {"id": "TV8", "file": "Serde", "definition": "to_value_sd", "old": "| SNewtypeVariant n x => bind (to_value_sd x) (fun v => Ok (unnamed_variant n [v]))", "new": "| SNewtypeVariant n x => bind (to_value_sd x) (fun v => Ok (unnamed_variant n [unnamed_composite [v]]))", "claim": "newtype variants hold the value itself (C94)", "targets": ["Props_ToValue", "Props_Convert"]}, {"id": "TV9", "file": "Serde", "definition": "to_value_sd", "old": "| STupleVariant n l => rmap (unnamed_variant n) (mapM to_value_sd l)", "new": "| STupleVariant n l => rmap (unnamed_variant n) (mapM to_value_sd (tl l))", "claim": "tuple variants keep all fields (C94)", "targets": ["Props_ToValue", "Props_Convert"]}, {"id": "TV10", "file": "Serde", "definition": "to_value_sd", "old": "rmap (named_variant n) (mapM (fun nx", "new": "rmap (fun l0 => unnamed_variant n (map snd l0)) (mapM (fun nx", "claim": "struct variants keep the names (C94)", "targets": ["Props_ToValue", "Props_Convert"]}, {"id": "TV11", "file": "Serde", "definition": "to_value_sd", "old": "bind (to_value_sd x) (fun v => Ok (s, v)))) end) l)", "new": "bind (to_value_sd x) (fun v => Ok (s, v)))) end) (rev l))", "claim": "map entries in order (C94)", "targets": ["Props_ToValue", "Props_Convert"]}, {"id": "TV12", "file": "Serde", "definition": "first_ok_type", "old": "if in_int sg w z then SInt sg w z else first_ok_type sg ws' z", "new": "SInt sg w z", "claim": "each integer with the first width it fits (C72 widths; not visible in to_value)", "targets": ["Props_ToValue", "Props_Convert", "Props_Texts"]}, {"id": "TV13", "file": "Serde", "definition": "ser_prim", "old": "| PI256 b => STuple (map (fun x => SInt false 8 (Z.of_N x)) b)", "new": "| PI256 b => STuple (map (fun x => SInt true 8 (Z.of_N x)) b)", "claim": "256-bit integers are spelt as bytes (C94)", "targets": ["Props_ToValue", "Props_Convert"]}, {"id": "TV14", "file": "Serde", "definition": "ser_bits", "old": "SMap [(SStr bitvec_key, SSeq (map SBool b))]", "new": "SMap [(SStr bitvec_key, SSeq (map SBool (rev b)))]", "claim": "bits in order (C94)", "targets": ["Props_ToValue", "Props_Convert"]}, {"id": "TV15", "file": "Serde", "definition": "ser_variant_with", "old": "[(SStr (s2l \"name\"), SStr n); (SStr (s2l \"values\"), ser_composite_with f c)]", "new": "[(SStr (s2l \"values\"), ser_composite_with f c); (SStr (s2l \"name\"), SStr n)]", "claim": "name before values (C94)", "targets": ["Props_ToValue", "Props_Convert"]}, {"id": "TV16", "file": "Serde", "definition": "ser_composite_with", "old": "| Unnamed l => SSeq (map f l)\n  end.", "new": "| Unnamed l => match l with [x] => f x | _ => SSeq (map f l) end\n  end.", "claim": "one-element composites stay composites (C94)", "targets": ["Props_ToValue", "Props_Convert"]}, {"id": "TV17", "file": "Serde", "definition": "zip_app", "old": "f :: fs', x :: l' => f x :: zip_app fs' l' | _, _ => [] end.\n\nFixpoint zip_named", "new": "f :: fs', x :: l' => zip_app fs' l' ++ [f x] | _, _ => [] end.\n\nFixpoint zip_named", "claim": "tuple fields in order (C94)", "targets": ["Props_ToValue", "Props_Convert"]}, {"id": "TV18", "file": "Serde", "definition": "zip_named", "old": "(n, x) :: l' => (n, f x) :: zip_named fs' l'", "new": "(n, x) :: l' => zip_named fs' l' ++ [(n, f x)]", "claim": "struct fields in order (C94)", "targets": ["Props_ToValue", "Props_Convert"]}, {"id": "TV19", "file": "Serde", "definition": "ser", "old": "| TyOption t' => fun d => match d with XNone => SNone | XSome x => SSome (ser t' x) | _ => SFloat end", "new": "| TyOption t' => fun d => match d with XNone => SNone | XSome x => ser t' x | _ => SFloat end", "claim": "Some is written as Some (C94)", "targets": ["Props_ToValue", "Props_Convert"]}, {"id": "TV20", "file": "Serde", "definition": "ser", "old": "(SChar (hd 0%N (fst kv)), ser t' (snd kv))", "new": "(SStr (fst kv), ser t' (snd kv))", "claim": "(std: a char key is written as a char; the result is the same value: equivalent for to_value)", "targets": ["Props_ToValue", "Props_Convert"]}, {"id": "TV21", "file": "Serde", "definition": "ser_variant_body", "old": "| VsUnit, VsUnit => SUnitVariant n", "new": "| VsUnit, VsUnit => SNewtypeVariant n SUnit", "claim": "unit variants are empty (C94)", "targets": ["Props_ToValue", "Props_Convert"]}, {"id": "CV1", "file": "Serde", "definition": "map_insert", "old": "else if str_eqb k k' then (k', x) :: l'", "new": "else if str_eqb k k' then l", "claim": "the last of equal keys wins (C93, C95)", "targets": ["Props_ToValue", "Props_Convert", "Props_Reads"]}, {"id": "CV2", "file": "Serde", "definition": "composite_de", "old": "if Nat.eqb (clen c) n then Ok (VSeq false (map SrcValue (values c))) else Err DCustom", "new": "Ok (VSeq false (map SrcValue (values c)))", "claim": "tuples need the exact length (C93)", "targets": ["Props_ToValue", "Props_Convert", "Props_Reads"]}, {"id": "CV3", "file": "Serde", "definition": "missing", "old": "TyOption _ => Ok XNone", "new": "TyOption _ => Err DMissing", "claim": "absent optional fields are None (C95)", "targets": ["Props_ToValue", "Props_Convert"]}, {"id": "CV4", "file": "Serde", "definition": "visit_struct/struct_entries", "old": "| None => bind (de_ignored s) (fun _ => struct_entries fs l' acc)", "new": "| None => Err DUnknown", "claim": "unknown fields are ignored (C95)", "targets": ["Props_ToValue", "Props_Convert"]}, {"id": "CV5", "file": "Serde", "definition": "de", "old": "| VsNewtype t' => VsNewtype (de t')", "new": "| VsNewtype t' => VsTuple [de t']", "claim": "newtype variants are read with newtype_variant (C95: newtype variant as struct variant)", "targets": ["Props_ToValue", "Props_Convert"]}]