[{"id": "TV9b", "file": "Serde", "definition": "to_value_sd", "old": "| STupleVariant n l => rmap (unnamed_variant n) (mapM to_value_sd l)", "new": "| STupleVariant n l => rmap (fun vs => unnamed_variant n (tl vs)) (mapM to_value_sd l)", "claim": "tuple variants keep all fields (C94)", "targets": ["Props_ToValue", "Props_Convert"]}, {"id": "TV11b", "file": "Serde", "definition": "to_value_sd", "old": "  | SMap l =>                                                                               (* 190-192, 345-377 *)\n      rmap named_composite", "new": "  | SMap l =>                                                                               (* 190-192, 345-377 *)\n      rmap (fun vs => named_composite (rev vs))", "claim": "map entries in order (C94)", "targets": ["Props_ToValue", "Props_Convert"]}, {"id": "RX1", "file": "DocRich", "definition": "rtext", "old": "| RChar c => Ok [c]\n", "new": "", "claim": "chars are keys too (C96)", "targets": ["Props_RichDocs"]}, {"id": "RX2", "file": "DocRich", "definition": "rtext", "old": "| _ => Err DType\n  end.\n\n(** [Vec<bool>", "new": "| RNewtype (RStr s) => Ok s\n  | _ => Err DType\n  end.\n\n(** [Vec<bool>", "claim": "a newtype is no key (C96)", "targets": ["Props_RichDocs"]}, {"id": "RX3", "file": "DocRich", "definition": "rvalue", "old": "| RNewtype x => rvalue x ", "new": "| RNewtype x => rmap (fun v => unnamed_composite [v]) (rvalue x) ", "claim": "newtypes are transparent for values (C96)", "targets": ["Props_RichDocs"]}, {"id": "RX4", "file": "DocRich", "definition": "rfields", "old": "| RNewtype x => rfields x ", "new": "| RNewtype x => rmap (fun v => Unnamed [v]) (rvalue x) ", "claim": "newtypes are transparent for composites (C96)", "targets": ["Props_RichDocs"]}, {"id": "RX5", "file": "DocRich", "definition": "rvalue", "old": "if strict && negb (Nat.eqb (length l) 0) then Err DLength else Ok (bit_sequence b))", "new": "Ok (bit_sequence b))", "claim": "strict formats refuse half-read maps (C96)", "targets": ["Props_RichDocs"]}, {"id": "RX6", "file": "DocRich", "definition": "rvalue", "old": "if str_eqb s bitvec_key then ", "new": "if str_eqb s bitvec_key && Nat.eqb (length l) 0 then ", "claim": "a reserved first key always means bits (C96)", "targets": ["Props_RichDocs"]}, {"id": "RX7", "file": "DocRich", "definition": "rvariant", "old": "| RSome x => rmap (fun v => (s2l \"Some\", Unnamed [v])) (rvalue x)", "new": "| RNewtype (RSome x) | RSome x => rmap (fun v => (s2l \"Some\", Unnamed [v])) (rvalue x)", "claim": "no newtypes around variants (C96_newtype_refuted)", "targets": ["Props_RichDocs"]}, {"id": "RX8", "file": "DocRich", "definition": "rvariant_fields", "old": "else Err DUnknown)", "new": "else rvariant_fields l' name vals)", "claim": "unknown entries are refused (C96)", "targets": ["Props_RichDocs"]}, {"id": "RX9", "file": "DocRich", "definition": "rvariant_fields", "old": "bind (rtext x) (fun n => rvariant_fields l' (Some n) vals)", "new": "bind (rtext x) (fun n => rvariant_fields l' (match name with Some m => Some m | None => Some n end) vals)", "claim": "the last name counts (C96)", "targets": ["Props_RichDocs"]}, {"id": "RX10", "file": "DocRich", "definition": "rprim", "old": "| RSeq l => bind (mapM ru8 l) (fun b => if Nat.eqb (length b) 32 then", "new": "| RSeq l => bind (mapM ru8 l) (fun b => if Nat.leb (length b) 32 then", "claim": "exactly 32 bytes (C96)", "targets": ["Props_RichDocs"]}, {"id": "RX11", "file": "DocRich", "definition": "ru8", "old": "if (w =? 128)%N then Err DType else if in_int false 8 z", "new": "if in_int false 8 z", "claim": "u8 takes no 128-bit integers (serde)", "targets": ["Props_RichDocs"]}, {"id": "RX12", "file": "DocRich", "definition": "rvalue", "old": "| RMap [] => Ok (named_composite [])", "new": "| RMap [] => Ok (unnamed_composite [])", "claim": "the empty map is an empty named composite (C96)", "targets": ["Props_RichDocs"]}, {"id": "RX13", "file": "DocRich", "definition": "rvalue", "old": "match p with Some x => rmap (fun c => Val (DVariant s c) tt) (rfields x) | None => Err DType end)", "new": "match p with Some x => rmap (fun c => Val (DVariant s c) tt) (rfields x) | None => Ok (unnamed_variant s []) end)", "claim": "variants without contents are refused (C96)", "targets": ["Props_RichDocs"]}, {"id": "RX14", "file": "SerdeContent", "definition": "next_relevant", "old": "else bind (de_ignored s) (fun _ => next_relevant tag cont l')", "new": "else Err DUnknown", "claim": "other entries are ignored (C71)", "targets": ["Props_Content"]}, {"id": "RX15", "file": "SerdeContent", "definition": "de_adjacently_tagged", "old": "              | None => absent n\n", "new": "              | None => Err DMissing\n", "claim": "a tag alone is enough for variants without content (C71)", "targets": ["Props_Content"]}, {"id": "RX16", "file": "SerdeContent", "definition": "at_end", "old": "match r with None => Ok x | Some _ => Err DDuplicate end", "new": "Ok x", "claim": "a second tag or content is an error (C71)", "targets": ["Props_Content"]}]