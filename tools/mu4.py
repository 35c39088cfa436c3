import json
M=[]
def m(id,file,d,old,new,claim,targets): M.append(dict(id=id,file=file,definition=d,old=old,new=new,claim=claim,targets=targets.split()))
m("D11b","Decode","decode_value_as_fields","Ok (Val (DComposite (fst x)) ctx, snd x)","Ok (Val (DComposite (fst x)) ctx, bs)","field-wise decoding moves the cursor (C36, after tightening)","Props_Decode")
# Value
m("V11","Value","values","match c with Named l => map snd l | Unnamed l => l end","match c with Named l => rev (map snd l) | Unnamed l => l end","values() gives the fields in order (C01..)","Props_Value")
m("V12","Value","clen","match c with Named l => length l | Unnamed l => length l end","match c with Named l => length l | Unnamed l => pred (length l) end","len() is the number of values","Props_Value")
m("V13","Value","remove_context","map_ctx (fun _ => tt) v","match v with Val (DVariant n _) _ => Val (DVariant n (Unnamed [])) tt | _ => map_ctx (fun _ => tt) v end","remove_context keeps the data","Props_Value")
m("V14","Value","from_uint","PU128 (as_u128_cast n)","PI128 (as_i128_cast n)","unsigned integers become U128 (C58)","Props_Macro")
m("V15","Value","as_u128_cast","Z.to_N (n mod 2 ^ 128)","Z.to_N (n mod 2 ^ 64)","u128 kept exactly (C58)","Props_Macro")
m("V16","Value","as_char","DPrim (PChar c) => Some c","DPrim (PChar c) => Some c | DPrim (PU128 n) => Some n","as_char only for chars","Props_Value")
m("V17","Value","as_i128","match vdef_of v with DPrim (PI128 n) => Some n","match vdef_of v with DPrim (PI128 n) => Some n | DPrim (PU128 n) => Some (Z.of_N n)","as_i128 only for i128","Props_Value")
m("V18","Value","at_path","fold_left at_opt path (Some v)","fold_left at_opt (rev path) (Some v)","at() chains go from the outside in","Props_Value")
m("V19","Value","from_bytes","unnamed_composite (map vu128 b)","unnamed_composite (map (fun x => vi128 (Z.of_N x)) b)","from_bytes gives u128s","Props_Serde Props_Custom Props_Macro Props_Value")
m("V20","Value","bit_sequence","Val (DBits b) tt","Val (DBits (rev b)) tt","bit_sequence keeps the order","Props_Parse Props_Value Props_Fmt")
m("V21","Value","named_variant","Val (DVariant n (Named l)) tt","Val (DComposite (Named l)) tt","named_variant makes a variant","Props_Value Props_Serde")
# Chars
m("H12","Chars","is_digit","(48 <=? c) && (c <=? 57)","(48 <=? c) && (c <=? 58)","digits are 0..9 (C12)","Props_Parse")
m("H13","Chars","is_whitespace","((9 <=? c) && (c <=? 13)) ||","((9 <=? c) && (c <=? 10)) ||","white space is Unicode White_Space","Props_Parse Props_Fmt Props_Layout")
m("H14","Chars","is_ascii_alpha","((65 <=? c) && (c <=? 90)) || ((97 <=? c) && (c <=? 122))","((65 <=? c) && (c <=? 90)) || ((97 <=? c) && (c <? 122))","z is a letter","Props_Parse Props_Fmt")
# Parse
m("P26","Parse","token","if x =? c then (true, t') else (false, t)","if x =? c then (true, t') else (false, t')","a refused token is not consumed","Props_Parse")
m("P27","Parse","digits_value","a * 10 + digit_val d","a * 10 + digit_val d - 0 * a + (if d =? 57 then 0 else 0)","(equivalent: control)","Props_Parse")
m("P28","Parse","digits_value","fold_left (fun a d => a * 10 + digit_val d) ds 0","fold_left (fun a d => a * 8 + digit_val d) ds 0","numbers are decimal","Props_Parse")
m("P29","Parse","parse_field_name","[parse_string; always parse_ident]","[always parse_ident; parse_string]","quoted field names are accepted","Props_Parse")
m("P30","Parse","parse_optional_variant_ident","one_of [parse_i_string; ok_of parse_ident]","one_of [ok_of parse_ident; parse_i_string]","v\"..\" is a variant name","Props_Parse")
m("P31","Parse","one_of","| (Err None, _) => one_of alts' t","| (Err None, t') => one_of alts' t'","alternatives start at the same place","Props_Parse")
m("P32","Parse","sep_by","| (Ok a, t1) => sep_rest fuel item t1 [a]","| (Ok a, t1) => sep_rest fuel item t1 []","the first item counts","Props_Parse")
m("P33","Parse","parse_bool","(Ok false, t')","(Ok false, t)","false is consumed","Props_Parse")
m("P34","Parse","e_at_one","PErr loc (Some (loc + 1)) k","PErr loc (Some (loc + 2)) k","error spans one byte (C06/C61)","Props_Parse Props_Messages")
m("P35","Parse","parse_variant","let t2 := skip_whitespace t1 in\n          match one_of","let t2 := t1 in\n          match one_of","space between variant name and body","Props_Parse")
# Scale
m("S8","Scale","take","(firstn k bs, skipn k bs)","(firstn k bs, skipn (pred k) bs)","bytes are read once","Props_Decode")
m("S9","Scale","le_bytes","(n mod 256) :: le_bytes k' (n / 256)","le_bytes k' (n / 256) ++ [n mod 256]","little endian","Props_Encode")
m("S10","Scale","compact_bytes","(N.size n + 7) / 8","(N.size n + 8) / 8","compact big integers use the fewest bytes","Props_Encode")
m("S11","Scale","cont","(0x80 <=? b) && (b <? 0xC0)","(0x80 <=? b) && (b <=? 0xC0)","continuation bytes","Props_Decode")
m("S12","Scale","word_of_bits","(if b then 1 else 0) + 2 * word_of_bits l'","(if b then 1 else 0) + 2 * word_of_bits (rev l')","bit order","Props_Encode")
m("S13","Scale","pad_to","l ++ repeat false (w - length l)","repeat false (w - length l) ++ l","padding behind the bits","Props_Encode")
m("S14","Scale","unpack_bits","unpack_bits st o n (skipn (bsbytes st) bs)","unpack_bits st o n bs","every store word is read","Props_Decode Props_Encode")
m("S15","Scale","decode_bits","take (words_for st len * bsbytes st) (snd x)","take (len / 8 * bsbytes st) (snd x)","bit sequences end at a store word","Props_Decode")
m("S16","Registry","wbytes","W64 => 8","W64 => 4","u64 is 8 bytes","Props_Decode Props_Encode")
m("S17","Scale","encode_bits","N.of_nat (length b) mod 2 ^ 32","N.of_nat (words_for st (length b)) mod 2 ^ 32","prefix counts bits","Props_Encode")
# Decode / Trace
m("D13","Decode","has_unnamed","existsb","forallb","a composite with an unnamed field is unnamed","Props_Decode")
m("T13","Trace","MAX_CAPACITY","100000000","1000000","capacity limit value","Props_Decode Props_Messages")
m("T14","Trace","wrap_composite","Err (map_so_far (fun c => Val (DComposite c) t) e)","Err (map_so_far (fun c => Val (DVariant [] c) t) e)","partial value is a composite","Props_Decode")
# Encode
m("E28","Encode","named_field","match fst f with Some _ => true | None => false end","true","fields without names are matched by position","Props_Encode")
m("E29","Encode","encode_primitive","| PI128 z => encode_number z","| PI128 z => encode_number (Z.abs z)","negative numbers keep their sign","Props_Encode Props_Same")
m("E30","Encode","encode_all","andthen (e t out) (fun out' => encode_all es' t out')","andthen (e t out) (fun out' => encode_all es' t out)","items are appended","Props_Encode")
m("E31","Encode","bits_of","option_map (cons b) (bits_of vs')","option_map (fun r => r ++ [b]) (bits_of vs')","bit order","Props_Encode Props_Same")
m("E32","Encode","encode_composite_as_fields","encode_fields (source_fields (composite_map encode c)) fs out","encode_fields (source_fields (composite_map encode c)) fs []","field encoding appends to the buffer","Props_Encode")
m("E33","Encode","andthen","| (s, out) => (s, out) end","| (SErr _, out) => k out | (s, out) => (s, out) end","errors stop the encoder","Props_Encode")
# Serde
m("R24","Serde","in_int","(- 2 ^ (Z.of_N w - 1) <=? z)","(- 2 ^ (Z.of_N w - 1) <? z)","the least number of a signed type is accepted","Props_Serde")
m("R25","Serde","visit_char","| VString [c] => Ok c","| VString (c :: _) => Ok c","a char is read only from a one-char string","Props_Serde")
m("R26","Serde","visit_elems","if strict then Err DLength else Ok (fst r)","Err DLength","tuples and leftover elements","Props_Serde")
m("R27","Serde","map_insert","else if str_eqb k k' then (k', x) :: l'","else if str_eqb k k' then (k', x') :: l'","the last entry of a key wins","Props_Serde")
m("R28","Serde","struct_entries","| Some _ => Err DDuplicate","| Some _ => struct_entries fs l' acc","a field given twice is an error","Props_Serde")
m("R29","Serde","missing","TyOption _ => Ok XNone","TyUnit => Ok XUnit | TyOption _ => Ok XNone","only Option fields may be absent","Props_Serde")
m("R30","Serde","ser_bits","SSeq (map SBool b)","SSeq (map SBool (rev b))","bits in order","Props_Serde")
m("R31","Serde","ser_composite_with","| Unnamed l => SSeq (map f l)","| Unnamed l => SSeq (map f (rev l))","order of values","Props_Serde Props_TextData")
m("R32","Serde","visit_variant","| VNone => Ok (s2l \"None\", Unnamed [])","| VNone => Ok (s2l \"None\", Named [])","None becomes None()","Props_Serde")
m("R33","Serde","visit_enum","Some (VsNewtype f), _ => rmap (fun x => XEnum n (VsNewtype x)) (f (SrcComposite c))","Some (VsNewtype f), _ => match values c with v :: _ => rmap (fun x => XEnum n (VsNewtype x)) (f (SrcValue v)) | [] => Err DLength end","newtype variants are given the whole composite","Props_Serde")
m("R34","Serde","variant_fields","else Err DUnknown","else variant_fields rec l' name vals","unknown keys in a variant map are refused","Props_Serde")
m("R35","Serde","doc_de","| FChar c => VChar c","| FChar c => VString [c]","documents (format model)","Props_Serde")
m("R36","Serde","de_ignored_f","| VEnum _ c => de_ignored_f f (SrcComposite c)","| VEnum _ c => Err DType","unknown fields with variants are skipped","Props_Serde")
m("R37","Serde","vdef_any","| DBits b => bits_map b","| DBits b => VSeq false (map SrcBool b)","bit sequences are read as the special map","Props_Serde")
# Macro
m("M12","Macro","after_entry","| [] => done (acc ++ [(key_name key, v)])","| [] => done ((key_name key, v) :: acc)","entries keep their order","Props_Macro")
m("M13","Macro","expand","| [TGroup Brace []] => Some (named_composite [])","| [TGroup Brace []] => Some (unnamed_composite [])","value!({}) is an empty named composite","Props_Macro")
m("M14","Macro","value_rules","| TGroup Brace m :: r' => Some (next (EMac [TGroup Brace m]) r')","","braces after a colon are values","Props_Macro")
m("M15","Macro","value_from","| RInt _ z => Val (DPrim (from_int z)) tt","| RInt _ z => Val (DPrim (from_uint z)) tt","signed integers become I128","Props_Macro")
m("M16","Macro","entries_with","| Some x, Some r => Some ((k, x) :: r)","| Some x, Some r => Some (r ++ [(k, x)])","entries keep their order","Props_Macro")
# Fmt
m("F28","Fmt","show_N","digits_fuel (S (N.size_nat n)) n []","digits_fuel (N.size_nat n) n []","zero is written as 0","Props_Fmt")
m("F29","Fmt","fmt_escaped","andthen (write_char c_bslash) (write_char e)","write_char e","escapes are written with a backslash","Props_Fmt")
m("F30","Fmt","fmt_bitsequence","if x then c_1 else c_0","if x then c_0 else c_1","bits","Props_Fmt")
m("F31","Fmt","fmt_field","andthen (write_char c_colon) (andthen space","andthen space (andthen (write_char c_colon)","colon before the space","Props_Layout")
m("F32","Fmt","display","Pretty 0 else Normal","Pretty 1 else Normal","{:#} starts without indent","Props_Layout")
m("F33","Fmt","fmt_int","andthen (write_char c_minus) (write_str (show_N (Z.abs_N z)))","write_str (show_N (Z.abs_N z))","negative sign","Props_Fmt Props_TextData Props_Doors")
json.dump(M,open('/tmp/gen/mu4.json','w'),indent=1)
S='/verif/rocq/theories/'
for x in M:
    c=open(S+x['file']+'.v').read().count(x['old'])
    if c!=1: print(x['id'],c)
