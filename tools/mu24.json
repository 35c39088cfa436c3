[
 {
  "id": "MS1",
  "file": "Fmt",
  "definition": "fmt_field",
  "old": "(andthen (write_char c_colon) (andthen space (fv (snd kv)))).",
  "new": "(andthen (write_char c_colon) (match snd kv with Val (DComposite _) _ => fv (snd kv) | _ => andthen space (fv (snd kv)) end)).",
  "claim": "what stands around a part does not depend on the part (C105)",
  "targets": [
   "Props_Splice"
  ]
 },
 {
  "id": "MS3",
  "file": "Fmt",
  "definition": "fmt_string",
  "old": "(andthen (seqs (map fmt_escaped s)) (write_char c_dquote)).",
  "new": "(andthen (seqs (map (fun c => if c =? 34 then write_char c else fmt_escaped c) s)) (write_char c_dquote)).",
  "claim": "a displayed string is safe anywhere in a text (C105)",
  "targets": [
   "Props_Splice"
  ]
 },
 {
  "id": "MS4",
  "file": "Fmt",
  "definition": "fmt_char",
  "old": "(andthen (fmt_escaped c) (write_char c_squote)).",
  "new": "(andthen (if c =? 92 then write_char c else fmt_escaped c) (write_char c_squote)).",
  "claim": "a displayed char is safe anywhere in a text (C105)",
  "targets": [
   "Props_Splice"
  ]
 },
 {
  "id": "MS5",
  "file": "Value",
  "definition": "at_composite",
  "old": "      | Unnamed l => nth_error l n",
  "new": "      | Unnamed l => nth_error (rev l) n",
  "claim": "the part at a position is the one replaced (C105)",
  "targets": [
   "Props_Splice"
  ]
 },
 {
  "id": "MS6",
  "file": "Value",
  "definition": "at_value",
  "old": "  | DVariant _ c => at_composite c loc",
  "new": "  | DVariant _ c => match loc with LIdx (S n) => at_composite c (LIdx n) | _ => at_composite c loc end",
  "claim": "the part at a position is the one replaced (C105)",
  "targets": [
   "Props_Splice"
  ]
 },
 {
  "id": "MS7",
  "file": "Parse",
  "definition": "parse_number",
  "old": "      if plus then (true, t1)",
  "new": "      if plus && (start_loc =? 0) then (true, t1)",
  "claim": "any text of a value can stand in the place of a part (C105)",
  "targets": [
   "Props_Splice"
  ]
 },
 {
  "id": "MS8",
  "file": "Parse",
  "definition": "string_loop",
  "old": "        else if c =? c_dquote then (Ok (rev acc), t')",
  "new": "        else if c =? c_dquote then (match acc with [] => if start =? 0 then (Ok (rev acc), t') else (Err None, t') | _ => (Ok (rev acc), t') end)",
  "claim": "any text of a value can stand in the place of a part (C105)",
  "targets": [
   "Props_Splice"
  ]
 },
 {
  "id": "ME1",
  "file": "Encode",
  "definition": "encode_struct",
  "old": "        | ResTy (TComposite fs) => match src with [(None, e)] => e t1 out | _ => encode_fields src fs out end",
  "new": "        | ResTy (TComposite fs) => encode_fields src fs out",
  "claim": "what can be encoded as a part can be encoded in its place (C106)",
  "targets": [
   "Props_EditAny"
  ]
 },
 {
  "id": "ME2",
  "file": "Encode",
  "definition": "do_encode",
  "old": "      | ResTy (TSequence t') => encode_all (map snd (values c)) t' (out ++ compact_encode (N.of_nat (clen c) mod 2 ^ 32))",
  "new": "      | ResTy (TSequence t') => match values c with [(Val (DComposite _) _, e)] => e t out | _ => encode_all (map snd (values c)) t' (out ++ compact_encode (N.of_nat (clen c) mod 2 ^ 32)) end",
  "claim": "what stands around a part does not depend on the part (C106)",
  "targets": [
   "Props_EditAny"
  ]
 },
 {
  "id": "ME3",
  "file": "Encode",
  "definition": "encode_fields",
  "old": "    if existsb named_field fs && existsb named_field src then encode_by_name src fs out",
  "new": "    if forallb named_field fs && existsb named_field src && (length fs =? length src)%nat && negb (length fs =? 3)%nat then encode_by_name src fs out",
  "claim": "the bytes around a part stay (C106): fields by position for structs of three fields",
  "targets": [
   "Props_EditAny"
  ]
 },
 {
  "id": "ME4",
  "file": "Encode",
  "definition": "encode_by_name",
  "old": "Some e => andthen (e (snd fd) out) (fun out' => encode_by_name src fs' out')",
  "new": "Some e => match e (snd fd) out with (SErr _, _) => encode_by_name src fs' out | r => andthen r (fun out' => encode_by_name src fs' out') end",
  "claim": "what is read back has the new part in its place (C106): a field that fails is skipped",
  "targets": [
   "Props_EditAny"
  ]
 }
]