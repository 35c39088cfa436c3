import json
M=[]
def m(id,file,defn,old,new,claim,targets): M.append(dict(id=id,file=file,definition=defn,old=old,new=new,claim=claim,targets=targets))
V=['Props_Value']; PA=['Props_Parse','Props_Fmt','Props_Custom']; FM=['Props_Fmt','Props_Custom']; CU=['Props_Custom']
m('V1','Value','composite_map','Named (map (fun kv => (fst kv, g (snd kv))) l)','Named (rev (map (fun kv => (fst kv, g (snd kv))) l))','map_context keeps field order (C01)',V)
m('V2','Value','map_context','map_context f (snd us) c','map_context f s c','children get a clone of the closure as it is after the call for the parent (C01)',V)
m('V3','Value','vdef_map','DVariant n c => DVariant n (composite_map g c)','DVariant n c => DVariant [] (composite_map g c)','map_context keeps variant names (C01)',V)
m('V4','Value','find_field','if str_eqb s n then Some v else find_field s l\'','match find_field s l\' with Some w => Some w | None => if str_eqb s n then Some v else None end','at(name) gives the first field of that name (C02)',V)
m('V5','Value','at_composite','      | Named l => option_map snd (nth_error l n)','      | Named l => None','named fields can be reached by position (C02)',V)
m('V6','Value','at_value','  | DVariant _ c => at_composite c loc','  | DVariant _ c => None','at looks into variants (C02)',V)
m('V7','Value','as_u128','DPrim (PU128 n) => Some n | _ => None','DPrim (PU128 n) => Some n | DPrim (PI128 z) => Some (Z.to_N z) | _ => None','as_u128 answers only for U128 (C03)',V)
m('V8','Value','as_i128_cast','((n + 2 ^ 127) mod 2 ^ 128 - 2 ^ 127)%Z','((n + 2 ^ 63) mod 2 ^ 64 - 2 ^ 63)%Z','signed integers convert exactly (C03)',V)
m('V9','Value','from_bytes','unnamed_composite (map vu128 b)','unnamed_composite (map vu128 (rev b))','from_bytes keeps order (C03)',V)
m('V10','Value','cis_empty','  | Named l => match l with [] => true | _ => false end','  | Named l => false','is_empty iff len is 0 (C03)',V)
m('P1','Parse','parse_number','in (negb minus, t1\')','in (minus, t1\')','a minus sign makes a number negative (C09)',PA)
m('P2','Parse','parse_u128','n <? 2 ^ 128','n <=? 2 ^ 128','2^128 is an overflow error (C09)',PA)
m('P3','Parse','parse_neg_i128','n <=? 2 ^ 127','n <? 2 ^ 127','-2^127 parses (C09)',PA)
m('P4','Chars','from_escape_code','  else if c =? 48 then Some 0\n  else None','  else None','\\0 is an escape (C10, C04)',PA)
m('P5','Chars','to_escape_code','  else if c =? 92 then Some 92\n  else if c =? 0 then','  else if c =? 0 then','a backslash is escaped (C10, C04)',PA)
m('P6','Parse','string_loop','e_between EStrEscape (offset t) (offset t + 1)','e_between EStrEscape (offset t + 2) (offset t + 3)','error locations are in the input (C07)',['Props_Parse'])
m('P7','Parse','string_loop',"string_loop start t' (c' :: acc) false","string_loop start t' (c' :: acc) true",'an escape ends after one char (C10)',PA)
m('P8','Parse','parse_ident','take_while (fun c => is_alphanumeric U c || (c =? c_under)) t1','take_while (fun c => is_alphanumeric U c) t1','identifiers may contain underscores (C11, C04)',PA)
m('P9','Parse','parse_i_string',"if negb (c =? c_v) then (Err None, t') else ok_of_o parse_string t'","(Err None, t')",'v"..." names a variant (C11, C04)',PA)
m('P10','Parse','sep_rest',"          | (Err e, _) => (Err e, t)\n          | (Ok a, t2) => sep_rest k item t2 (a :: acc)","          | (Err e, _) => (Ok (rev acc), t1)\n          | (Ok a, t2) => sep_rest k item t2 (a :: acc)",'no trailing commas (C11)',PA)
m('P11','Parse','parse_delimited','let t5 := skip_whitespace t4 in','let t5 := t4 in','white space may precede a closing bracket (C11, C04)',PA)
m('P12','Parse','parse_builtin','one_of [ omap vbool parse_bool;\n','one_of [ parse_variant fuel; omap vbool parse_bool;\n','true and false are booleans before they are variant names (C11, C05)',PA)
m('P13','Parse','wind_forward','skipn (N.to_nat (blen s - blen cursor)) s','skipn (length s - length cursor)%nat s','one next() per byte (C17_general_cursor; the repaired program contradicts C17_cursor_refuted)',CU)
m('P14','Parse','take_digits','else if seen_n && (c =? c_under) then','else if (c =? c_under) then','a number does not start with an underscore (C11, C09)',PA)
m('P15','Parse','parse_bit_sequence','map (fun c => c =? c_1) bits','map (fun c => c =? c_0) bits','bits are read as written (C11, C04)',PA)
m('P16','Parse','parse_char','if negb ok then (Err (Some (e_at_one (ECharClose start) (offset t4))), t4) else (Ok c, t4)','(Ok c, t4)','a char needs its closing quote (C11)',PA)
m('P17','Parse','parse_number','      if plus then (true, t1)','      if plus then (false, t1)','+5 is positive (C09)',PA)
m('P18','Parse','skip_spaced_separator','(is_sep, skip_whitespace t2)','(is_sep, t2)','white space may follow a separator (C11, C04)',PA)
m('P19','Parse','shift_err','PErr (start_offset + start_loc e)','PErr (start_loc e)','errors of custom parsers are located in the whole input (C15)',PA)
m('P19b','Parse','shift_err','option_map (fun l => start_offset + l) (end_loc e)','end_loc e','errors of custom parsers are located in the whole input (C15)',PA)
m('P20','Parse','run_customs',"| (None, cur) => run_customs cs' cur","| (None, cur) => run_customs cs' cursor",'a declining custom parser that moved the cursor is seen by the next one (C17)',CU)
m('P21','Parse','parse_value','| Some (Ok v, cursor) => (Ok v, wind_forward t cursor)','| Some (Ok v, cursor) => (Ok v, t)','the cursor advances past what a custom parser read (C17, C15)',CU)
m('P22','Parse','parse_field_name_and_value',"if negb ok then (Err (e_at_one (EMissingSep c_colon) (offset t2)), t2) else\n",'','a field needs its colon (C11)',PA)
m('P23','Parse','parse_delimited','if ok then (Ok [], t3) else','if ok then (Ok [], t1) else','the closing bracket of an empty composite is consumed (C06, C11)',PA)
m('P24','Parse','parse_number','if end_loc =? start_loc then (Err None, t3)','if end_loc =? start_loc then (Ok (PU128 0), t3)','no number without digits (C09, C11)',PA)
m('P25','Parse','is_alphabetic use in parse_ident','take_while (is_alphabetic U) t in','take_while (is_alphanumeric U) t in','identifiers do not start with a digit (C11)',PA)
m('F1','Fmt','digits_fuel','if n <? 10 then acc\'','if n <=? 10 then acc\'','10 displays as 10 (C20)',FM)
m('F2','Fmt','is_ident','is_alphabetic U c && forallb','(is_alphabetic U c || (c =? c_under)) && forallb','names that do not parse as identifiers are quoted (C04)',FM)
m('F3','Fmt','fmt_char','andthen (write_char c_squote) (andthen (fmt_escaped c)','andthen (write_char c_squote) (andthen (write_char c)','chars are escaped (C10, C04)',FM)
m('F4','Fmt','fmt_variant','else andthen (write_char c_v) (fmt_string name)','else fmt_string name','quoted variant names have a v in front (C04)',FM)
m('F6','Fmt','fmt_items','andthen (write_str (s2l ","))','andthen (write_str (s2l ";"))','items are separated by commas (C04)',FM)
m('F8','Fmt','andthen',"if ok then b f' else (f', false)","b f'",'a failing writer is reported (C12)',FM)
m('F9','Fmt','fmt_int','if (z <? 0)%Z then andthen (write_char c_minus) (write_str','if (z <? 0)%Z then andthen ret (write_str','negative numbers have a sign (C20)',FM)
m('F10','Fmt','fmt_primitive','| PU256 _ | PI256 _ => fun f => (f, false)','| PU256 _ | PI256 _ => ret','256-bit numbers are an error (C19)',FM)
m('F11','Fmt','run_formatters',"        | (Some ok, w) => (Some ok, FS w (fstyle f))\n","        | (Some ok, w) => match run_formatters fs' v (FS w (fstyle f)) with (None, f') => (Some ok, f') | r => r end\n",'the first answer decides (C13)',FM)
m('F12','Fmt','write_newline','(write_str (leading_indent cfg))','ret','leading indent is written after every newline',FM)
m('F13','Fmt','fmt_context','(write_str (s2l "> "))','(write_str (s2l ">"))','contexts are printed as <ctx> followed by a space',FM)
m('F14','Fmt','is_byte_value','n <? 256','n <=? 256','only lists of bytes are written as hex (C14)',CU)
m('F15','Fmt','u4_to_hex','0123456789ABCDEF','0123456789abcdef','hex digits are upper case (C14)',CU)
m('F16','Fmt','format_hex','        | [] => (None, w)\n','        | [] => (Some true, w)\n','empty composites are not hex (C14)',CU)
m('F17','Fmt','hex_loop','let (w1, ok) := wr w [hi] in\n            if ok then let (w2, ok) := wr w1 [lo] in','let (w1, ok) := wr w [lo] in\n            if ok then let (w2, ok) := wr w1 [hi] in','high digit first (C14)',CU)
m('F18','Fmt','display','(if alternate then Pretty 0 else Normal)','(if alternate then Normal else Pretty 0)','{:#} is the indented form',FM)
m('F19','Fmt','indent_step','Pretty n => Pretty (S n) end), true)','Pretty n => Pretty n end), true)','nested items are indented one step more',FM)
m('F20','Fmt','fmt_name','if is_ident U n then write_str n else fmt_string n','write_str n','field names that are not identifiers are quoted (C04)',FM)
m('F21','Fmt','space','match fstyle f with Compact => ret f | Normal | Pretty _ => write_char c_space f end','write_char c_space f','the compact form has no spaces (C18)',FM)
m('F22','Fmt','fmt_value','andthen (fmt_context c)\n          (fun f =>','andthen ret\n          (fun f =>','contexts are printed when asked for',FM)
m('H1','Hex','hex_nibble','(b <=? 102)','(b <=? 103)','g is not a hex digit (C15)',CU)
m('H2','Hex','hex_scan','vu128 (m * 16 + n)','vu128 (n * 16 + m)','first digit is the high one (C14, C15)',CU)
m('H3','Hex','hex_scan','    | Some _ => Err (e_between (ECustom wrong_length_msg) 0 idx)','    | Some _ => Ok (rev acc, t)','odd numbers of digits are an error (C15)',CU)
m('H4','Hex','parse_hex','hex_scan t 2 None []','hex_scan t 0 None []','error locations count the 0x (C15)',CU)
m('H5','Ss58','parse_ss58_bytes','b <=? 63','b <=? 64','prefixes from 64 have two bytes (C16)',CU)
m('H6','Ss58','parse_ss58_bytes','if negb (str_eqb (skipn checksum_start_idx bs) checksum) then None\n              else','','the checksum is verified (C16)',CU)
m('H7','Ss58','parse_ss58_bytes','(length bs <? pl + 2)%nat','(length bs <? pl + 1)%nat','short data is refused (C16)',CU)
m('H8','Ss58','parse_ss58_bytes','str_is maybe_ss58 "true" || str_is maybe_ss58 "false" || ','','true and false are not addresses (C16)',CU)
m('H9','Ss58','parse_ss58','| Some (bs, rest) => (Some (Ok (from_bytes bs)), rest)','| Some (bs, rest) => (Some (Ok (from_bytes bs)), s)','the address is consumed (C16)',CU)
m('H10','Ss58','parse_ss58_bytes','(c =? c_lpar) || (c =? c_lbrace)','(c =? c_lpar)','variant names are not addresses (C16)',CU)
m('H11','Ss58','parse_ss58_bytes','(firstn checksum_start_idx bs)) in','(skipn pl (firstn checksum_start_idx bs))) in','the checksum covers the prefix (C16)',CU)
json.dump(M,open('/tmp/gen/mu1.json','w'))
print(len(M))
