[{"id": "NC1", "file": "Serde", "definition": "prim_de", "old": "        | PU128 n => if in_int sg w (Z.of_N n) then VInt sg w (Z.of_N n) else prim_any p\n", "new": "        | PU128 n => if in_int sg w (Z.of_N n) && negb sg then VInt sg w (Z.of_N n) else prim_any p\n", "claim": "signed numbers survive text (C113): unsigned values are refused for signed types", "targets": ["Props_DataEdit"]}, {"id": "NC2", "file": "Serde", "definition": "composite_de", "old": "    | HSeq => Ok (VSeq false (map SrcValue (values c)))                                  (* 427-438 *)\n", "new": "    | HSeq => Ok (VSeq false (map SrcValue (rev (values c))))\n", "claim": "an edit changes exactly that element (C113): sequences are read backwards", "targets": ["Props_DataEdit"]}, {"id": "NC4", "file": "Serde", "definition": "struct_finish", "old": "(match find_field (fst m) acc with Some x => Ok x | None => snd m end)", "new": "(match find_field (fst m) (tl acc) with Some x => Ok x | None => snd m end)", "claim": "an edit changes exactly that field (C113): the last field read is forgotten", "targets": ["Props_DataEdit"]}, {"id": "NC5", "file": "Serde", "definition": "seq_take", "old": "bind (seq_take fs' l') (fun r => Ok (x :: fst r, snd r))", "new": "bind (seq_take fs' l') (fun r => Ok (match fst r with y :: ys => y :: x :: ys | [] => [x] end, snd r))", "claim": "an edit changes exactly that element (C113): tuple elements are mixed up", "targets": ["Props_DataEdit"]}, {"id": "NC6", "file": "Serde", "definition": "to_value_sd", "old": "  | SSeq l | STuple l | STupleStruct l => rmap unnamed_composite (mapM to_value_sd l)", "new": "  | SSeq l | STuple l | STupleStruct l => rmap (fun l => unnamed_composite (filter (fun v => match v with Val (DComposite (Unnamed [])) _ => false | _ => true end) l)) (mapM to_value_sd l)", "claim": "every part lies in its place (C113): empty elements are dropped", "targets": ["Props_DataEdit"]}, {"id": "NC7", "file": "Parse", "definition": "parse_number", "old": "      | Some n => (Ok (PI128 n), t3)\n", "new": "      | Some n => (Ok (PI128 (- n)), t3)\n", "claim": "numbers survive text (C113): the minus sign is dropped", "targets": ["Props_DataEdit"]}, {"id": "NC8", "file": "Serde", "definition": "visit_char", "old": "    | VString [c] => Ok c\n", "new": "    | VString (c :: _) => Ok c\n", "claim": "C113_read: what lies is read; a char is read from a longer string (rules of C93)", "targets": ["Props_DataEdit"]}]