import json
M=[]
def m(id,file,defn,old,new,claim,targets): M.append(dict(id=id,file=file,definition=defn,old=old,new=new,claim=claim,targets=targets))
ME=['Props_Messages']; LA=['Props_Layout']; LO=['Props_Loc']; SA=['Props_Same']; CO=['Props_Cost']
m('P20b','Parse','run_customs',"| (None, cur) => run_customs cs' cur","| (None, cur) => run_customs cs' cursor",'a declining custom parser that moved the cursor is seen by the next one (C17, C62)',ME)
m('F13b','Fmt','fmt_context','(write_str (s2l "> "))','(write_str (s2l ">"))','contexts are printed as <ctx> followed by a space (C59)',LA)
m('F22b','Fmt','fmt_value','andthen (fmt_context c)\n          (fun f =>','andthen ret\n          (fun f =>','contexts are printed when asked for (C59)',LA)
m('F12b','Fmt','write_newline','(write_str (leading_indent cfg))','ret','leading indent is written after every newline (C59)',LA)
m('F19b','Fmt','indent_step','Pretty n => Pretty (S n) end), true)','Pretty n => Pretty n end), true)','nested items are indented one step more (C59)',LA)
m('F20b','Fmt','fmt_name','if is_ident U n then write_str n else fmt_string n','if is_ident U n then write_str n else write_str n','field names that are not identifiers are quoted (C04, C59)',['Props_Fmt','Props_Layout'])
m('F23','Fmt','unindent_step','Pretty n => Pretty (Nat.pred n) end), true)','Pretty n => Pretty n end), true)','the closing bracket is one step less indented (C59)',LA)
m('F24','Fmt','fmt_composite','(andthen unindent_step (andthen newline (write_char c_rpar))))))','(andthen newline (andthen unindent_step (write_char c_rpar))))))','the closing parenthesis is aligned with the opening line (C59)',LA)
m('F25','Fmt','item_separator','Normal => write_char c_space f | Pretty n => write_newline n f end','Normal => ret f | Pretty n => write_newline n f end','a space follows a comma in the normal style (C59)',LA)
m('F26','Fmt','fmt_variant','(andthen space (fmt_composite fv c))','(fmt_composite fv c)','a space separates a variant name from its fields (C59)',LA)
m('F27','Fmt','run_formatters',"| (None, w) => run_formatters fs' v (FS w (fstyle f))","| (None, w) => (None, FS w (fstyle f))",'all formatters are asked until one answers (C13, C59)',['Props_Fmt','Props_Layout'])
m('G1','Messages','perr_display','s2l "Error from char " ++ show_N (start_loc e) ++ s2l " to " ++ show_N l','s2l "Error from char " ++ show_N l ++ s2l " to " ++ show_N (start_loc e)','the text shows start before end (C61)',ME)
m('G2','Messages','seg_display','s2l "[" ++ show_N (N.of_nat n)','s2l "[" ++ show_N (N.of_nat (S n))','indices in paths are zero based (C60)',ME)
m('G3','Messages','path_display',"seg_display s ++ path_display p'","path_display p' ++ seg_display s",'paths are printed outermost first (C60)',ME)
m('G4','Messages','seg_display','  s2l "." ++ match s with','  match s with','path segments are separated by dots (C60)',ME)
m('G5','Messages','terr_display','s2l "Error decoding value at " ++ path_display at_ ++ s2l ": " ++ show_cause c','s2l "Error decoding value at " ++ s2l ": " ++ show_cause c','the text contains the path (C60)',ME)
m('G6','Messages','display_value_with_typeid','write_value U string_wr typeid_cfg (Pretty 0) v w','write_value U string_wr typeid_cfg Normal v w','the partial value is pretty printed (C60)',ME)
m('G7','Messages','typeid_cfg','custom_formatters := [format_hex string_wr]','custom_formatters := []','byte lists in the partial value are hex (C60)',ME)
m('G8','Messages','terr_to_string','in if ok then Some t else None','in Some t','to_string panics on 256-bit numbers (C60)',ME)
m('L1','EncodeLoc','encode_by_name_l','andthen_l (at_loc (LField (key_of fd)) (e (snd fd) out))','andthen_l (e (snd fd) out)','the error path names the field (C65)',LO)
m('L2','EncodeLoc','indexed','(LIdx i, a) :: indexed (S i) l\'','(LIdx i, a) :: indexed i l\'','the error path has the index of the element (C65)',LO)
m('L3','EncodeLoc','at_loc','(SErr _, _) => (fst r, l :: snd r)','(SErr _, _) => (fst r, snd r ++ [l])','the path lists the outermost location first (C65)',LO)
m('L4','EncodeLoc','first_bad','Some _ => first_bad (S i) vs\'','Some _ => first_bad i vs\'','the path has the index of the entry that is not a bit (C65)',LO)
m('L5','EncodeLoc','encode_composite_l','                  | _ => ((SErr original_error, out), path)\n                  end','                  | _ => nowhere (SErr original_error, out)\n                  end','the location of the original error is kept (C65)',LO)
m('L6','EncodeLoc','located','match n with Some n => LField n | None => LIdx i end','match n with Some n => LField [] | None => LIdx i end','the path has the name of the source field (C65)',LO)
m('L7','EncodeLoc','do_encode_l','encode_all_l (indexed 0 (map snd (values c))) t\' out else','encode_all_l (indexed 1 (map snd (values c))) t\' out else','array elements are counted from 0 (C65)',LO)
m('L8','EncodeLoc','encode_struct_l','ResTy (TComposite fs) => match src with [(None, e)] => e t1 out','ResTy (TComposite fs) => match src with [(None, e)] => at_loc (LIdx 1) (e t1 out)','a single value is passed on without location (C65)',LO)
m('L9','EncodeLoc','encode_fields_l','encode_in_order_l (located 0 src)','encode_in_order_l (located 0 (rev src))','(also changes the bytes) fields are written in order (C65_same_encoder)',LO)
m('K1','EncodeCost','encode_c','plus_calls 1\n','plus_calls 0\n','one call per value (C63)',CO)
m('Q1','Encode','encode_number','le_bytes (wbytes w) (Z.to_N (z mod 2 ^ Z.of_N (wbits w)))','le_bytes (wbytes w) (Z.to_N (Z.abs z))','negative numbers are written in two\'s complement (C64)',SA)
m('Q2','Encode','lookup_last','| Some e => Some e\n                   | None => if str_eqb (key_of f) name then Some (snd f) else None','| Some e => if str_eqb (key_of f) name then Some (snd f) else Some e\n                   | None => if str_eqb (key_of f) name then Some (snd f) else None','the last field of a name counts (C64)',SA)
m('Q3','Encode','encode_fields','if existsb named_field fs && existsb named_field src','if existsb named_field src','(as it happens) fields go by position if the type has no names (C64)',SA)
m('Q4','Encode','bit_of','Some (n =? 1) else None','Some (n =? 0) else None','1 is a set bit (C64)',SA)
m('Q5','Encode','encode_variant','find (fun v => str_eqb (vi_name v) name) vs','find (fun v => (vi_index v =? 0)) vs','the variant is found by name (C64)',SA)
m('Q6','Encode','encode_composite','                  | [x] => match snd x t\' [] with','                  | x :: _ => match snd x t\' [] with','values besides the first are not dropped silently (C64)',SA)
m('Q7','Encode','encode_char','then (SOk, out ++ le_bytes 4 c)','then (SOk, out ++ le_bytes 4 (c mod 65536))','characters outside the first plane are kept (C64)',SA)
m('Q8','Encode','encode_byte_array','(fun x => encode_number (Z.of_N x)) b) t\' out else','(fun x => encode_number (Z.of_N x)) (rev b)) t\' out else','the bytes of a 256-bit number keep their order (C64)',SA)
m('Q9','Encode','encode_in_order','| _, _ => (SOk, out)','| _, _ => (SOk, out ++ [0])','nothing is added behind the fields (C64)',SA)
m('Q10','Encode','in_unsigned','(z <? 2 ^ Z.of_N (wbits w))','(z <=? 2 ^ Z.of_N (wbits w))','numbers out of range are refused (C64)',SA)
json.dump(M,open('/tmp/gen/mu3.json','w'),indent=1)
for x in M:
    t=open('/verif/rocq/theories/'+x['file']+'.v').read()
    c=t.count(x['old'])
    if c!=1: print(x['id'],c)
