[{"id": "PN1", "file": "Panics", "definition": "visit_composite_p", "old": "if (0 <? length fs)%nat && negb (has_unnamed fs)", "new": "if (0 <? length fs)%nat", "claim": "decoding never unwraps a missing name (C99)", "targets": ["Props_Panics"]}, {"id": "PN2", "file": "Panics", "definition": "decode_named_p", "old": "decode_named_p dec (peek_name fs') fs' (snd x)", "new": "decode_named_p dec (peek_name (tl fs')) fs' (snd x)", "claim": "the name peeked is that of the next field (C99)", "targets": ["Props_Panics"]}, {"id": "PN3", "file": "Panics", "definition": "find_single_p", "old": "if (length fs =? 1)%nat then", "new": "if (length fs <=? 1)%nat then", "claim": "no unwrapping of a missing field (C99)", "targets": ["Props_Panics"]}, {"id": "PN4", "file": "Panics", "definition": "find_single_p", "old": "if (length ts =? 1)%nat then rbind", "new": "if (length ts <? 2)%nat then rbind", "claim": "no unwrapping of a missing field (C99)", "targets": ["Props_Panics"]}, {"id": "PN5", "file": "Panics", "definition": "deserialize_option_p", "old": "if str_eqb n (s2l \"Some\") && Nat.eqb (length vs) 1", "new": "if str_eqb n (s2l \"Some\")", "claim": "no popping from nothing (C99)", "targets": ["Props_Panics"]}, {"id": "PN6", "file": "Panics", "definition": "visit_composite_p", "old": "negb (has_unnamed fs)", "new": "is_some (peek_name fs)", "claim": "all fields are looked at, not only the first (C99)", "targets": ["Props_Panics"]}, {"id": "PN8", "file": "Panics", "definition": "shift_err_p", "old": "(usize_add bits start_offset (start_loc e))", "new": "(usize_add bits start_offset (start_offset + start_loc e))", "claim": "offsets are added once (C99)", "targets": ["Props_Panics"]}]