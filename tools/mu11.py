import json
M=[]
def m(id,file,d,old,new,claim,targets): M.append(dict(id=id,file=file,definition=d,old=old,new=new,claim=claim,targets=targets.split()))
C="Props_Cursor"; B="Props_Bytes"
m("CU1","Cursor","decode_composite_as_fields","| VDone (Err e) _ => Returns (Err e) input\n    | VDone (Ok c) it =>","| VDone (Err e) it => Returns (Err e) (it_bytes it)\n    | VDone (Ok c) it =>","a failed decode_as_fields leaves the cursor",C)
m("CU2","Cursor","decode_composite_as_fields","| (Ok _, it') => Returns (Ok c) (it_bytes it')","| (Ok _, it') => Returns (Ok c) input","a success moves the cursor",C)
m("CU3","Cursor","composite_decode_as_fields","| (Ok _, it') => Returns val (it_bytes it')","| (Ok _, it') => match val with Ok _ => Returns val (it_bytes it') | Err _ => Returns val input end","the trait leaves the cursor at the failed field",C)
m("CU4","Cursor","visit_named","visit_named f (peek_name it') (vals ++ [(n, v)]) it'","visit_named f (peek_name it) (vals ++ [(n, v)]) it'","each value gets its own field's name",C)
m("CU5","Cursor","visit","then visit_named fuel (peek_name it) [] it","then visit_named fuel None [] it","the expect on a name never fires",C)
m("CU6","Cursor","visit","if (0 <? remaining it)%nat && negb (has_unnamed (it_fields it))","if (0 <? remaining it)%nat && negb (forallb (fun f => match fst f with None => true | _ => false end) (it_fields it))","one unnamed field makes all unnamed; the expect never fires",C)
m("CU7","Cursor","visit","(0 <? remaining it)%nat && ","","no fields decode to an unnamed composite",C)
m("CU8","Cursor","decode_item","| Ok (v, r) => (Some (Ok v), Items r fs)","| Ok (v, r) => (Some (Ok v), Items (it_bytes it) fs)","each item is decoded where the one before ended",C)
m("CU9","Cursor","decode_item","if fuses then Items (it_bytes it) [] else it","if fuses then Items [] [] else it","a failed item leaves the bytes",C)
m("CU10","Cursor","visit_unnamed","visit_unnamed f (vals ++ [v]) it'","visit_unnamed f (v :: vals) it'","fields come in order",C)
m("CU11","Cursor","value_decode_as_fields","| Returns (Err e) cur => Returns (Err e) cur\n    | Returns (Ok c) cur => Returns (Ok (Val (DComposite c) ctx)) cur","| Returns (Err e) cur => Returns (Err e) input\n    | Returns (Ok c) cur => Returns (Ok (Val (DComposite c) ctx)) cur","the cursor of Value is that of Composite",C)
m("CU12","Cursor","skip_decoding","| (Some (Err e), it') => (Err e, it')\n             | (Some (Ok _), it') => skip_decoding f it'","| (Some (Err e), it') => (Ok tt, it')\n             | (Some (Ok _), it') => skip_decoding f it'","an error while skipping is reported",C)
# ByteParsers
m("BP1","ByteParsers","nibble_rs","rbind (u8_sub b 65)","rbind (u8_sub b 66)","no subtraction overflows",B)
m("BP2","ByteParsers","nibble_rs","(97 <=? b) && (b <=? 102)","(97 <=? b) && (b <=? 122)","only a to f are hex digits",B)
m("BP3","ByteParsers","nibble_rs","rbind (u8_sub b 48) (fun x => Ran (Some x))","Ran (Some b)","a digit counts its value; no overflow",B)
m("BP4","ByteParsers","hex_loop_rs","rbind (u8_mul n 16)","rbind (u8_mul n 32)","no multiplication overflows",B)
m("BP5","ByteParsers","hex_loop_rs","if negb (is_ascii_alnum b) then","if negb (is_ascii_alnum b) && (b <? 128) then","the loop stops at non-ASCII bytes",B)
m("BP6","ByteParsers","parse_hex_rs","(S (length s)) s 2 None []","(S (length s)) s 3 None []","reading starts after 0x",B)
m("BP7","ByteParsers","parse_hex_rs","rbind (slice_from idx s)","rbind (slice_from (idx + 1) s)","the unsafe block gets valid UTF-8 and the index is in range",B)
m("BP8","ByteParsers","parse_hex_rs","| Some _ => Ran (Some (Err (e_between","| Some 16 => Ran (Some (Err (e_between","an odd number of digits is an error",B) if False else None
m("BP9","ByteParsers","hex_loop_rs","hex_loop_rs f bytes (idx + 1) None (values","hex_loop_rs f bytes (idx + 1) (Some n) (values","a byte is two digits",B)
m("BP10","ByteParsers","hex_loop_rs","(e_at (ECustom (invalid_char_msg b)) (N.of_nat idx))","(e_at (ECustom (invalid_char_msg b)) (N.of_nat (idx - 2)))","the position of the bad digit",B)
m("BP11","ByteParsers","parse_ss58_rs","(str_slice end_idx (length s) s)","(str_slice (end_idx + 1) (length s) s)","slices are on character boundaries",B)
m("BP12","ByteParsers","parse_ss58_rs","if (length bytes <? prefix_len + 2)%nat then","if (length bytes <? 2)%nat then","the last slice is in range",B)
m("BP13","ByteParsers","parse_ss58_rs","if (length bytes <? prefix_len + 2)%nat then","if (length bytes <? prefix_len)%nat then","no subtraction below zero",B)
m("BP14","ByteParsers","parse_ss58_rs","if match maybe_ss58 with [] => true | _ => false end then Ran (None, s)\n      else ","","the empty address is no address",B)
m("BP15","ByteParsers","parse_ss58_rs","fun out => Ran (Some out, rest)","fun out => Ran (Some out, s)","the cursor moves over the address",B)
m("BP16","ByteParsers","parse_ss58_rs","slice prefix_len checksum_start_idx bytes","slice prefix_len (length bytes) bytes","the checksum is not part of the account",B)
m("BP17","ByteParsers","find_from","(idx + length (utf8_char c))","(idx + 1)","find gives byte indices",B)
m("BP18","ByteParsers","hex_digits_rs","rbind (u4_to_hex_rs (N.shiftr n 4))","rbind (u4_to_hex_rs (N.shiftr n 3))","the expect of u4_to_hex never fires",B)
m("BP19","ByteParsers","hex_digits_rs","(N.land n 15)","(N.land n 31)","the expect of u4_to_hex never fires",B)
m("BP20","ByteParsers","format_hex_rs","if negb ok then Ran (Some false, w1) else","","a failing writer stops it",B)
m("BP21","ByteParsers","parse_ss58_rs","else if match skip_while is_whitespace (chars rest) with c :: _ => (c =? c_lpar) || (c =? c_lbrace) | [] => false end then Ran (None, s)\n","else if match chars rest with c :: _ => (c =? c_lpar) || (c =? c_lbrace) | [] => false end then Ran (None, s)\n","white space before a bracket is skipped",B)
for x in M:
    s=open('/verif/rocq/theories/%s.v'%x['file']).read()
    if s.count(x['old'])!=1: print("BAD",x['id'],s.count(x['old']))
json.dump(M,open('/tmp/gen/mu11.json','w'),indent=1)
print(len(M))
