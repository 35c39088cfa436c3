import json
M=[]
def m(id,file,d,old,new,claim,targets): M.append(dict(id=id,file=file,definition=d,old=old,new=new,claim=claim,targets=targets.split()))
# Value
m("X1","Value","from_int",r"PI128 (as_i128_cast n).","PU128 (as_u128_cast n).","From<i..> gives a signed primitive","Props_Value")
m("X2","Value","named_composite","value unit := Val (DComposite (Named l)) tt.","value unit := Val (DComposite (match l with [] => Unnamed [] | _ => Named l end)) tt.","named_composite([]) is named","Props_Value Props_Parse Props_Serde")
m("X3","Value","as_bool","DPrim (PBool b) => Some b | _ => None","DPrim (PBool b) => Some b | DBits [b] => Some b | _ => None","as_bool answers only for booleans","Props_Value")
m("X4","Value","as_str","DPrim (PString s) => Some s | _ => None","DPrim (PString s) => Some s | DPrim (PChar c) => Some [c] | _ => None","as_str answers only for strings","Props_Value")
m("X5","Value","at_opt","obind o (fun v => at_value v loc).","match o with Some v => match at_value v loc with Some w => Some w | None => Some v end | None => None end.","a missing step of a path gives nothing","Props_Value")
m("X6","Value","children","| DVariant _ c => values c\n  | DBits","| DVariant _ c => []\n  | DBits","(specification helper) children","Props_Value")
m("X7","Value","remove_context/map_ctx","map_ctx (fun _ => tt) v.","match v with Val d _ => Val (vdef_map (fun w => map_ctx (fun _ => tt) w) (match d with DVariant n (Named []) => DVariant n (Unnamed []) | d => d end)) tt end.","remove_context keeps the value","Props_Value")
# Chars / Fmt
m("X8","Chars","is_alphabetic","if c <? 128 then is_ascii_alpha c else","if c <? 128 then is_ascii_alpha c || (c =? 95) else","an identifier does not begin with an underscore","Props_Fmt Props_Parse Props_Layout")
m("X9","Chars","is_alphanumeric","(if c <? 128 then is_digit c else u_numeric U c)","(if c <? 128 then is_digit c || (c =? 45) else u_numeric U c)","- is not part of an identifier","Props_Fmt Props_Parse Props_Layout")
m("X10","Fmt","newline","match fstyle f with Compact | Normal => ret f | Pretty n => write_newline n f end.","match fstyle f with Compact | Normal => ret f | Pretty n => write_newline (Nat.pred n) f end.","indentation of unnamed items","Props_Layout Props_Fmt")
m("X11","Fmt","fmt_string","(andthen (seqs (map fmt_escaped s)) (write_char c_dquote))","(andthen (seqs (map write_char s)) (write_char c_dquote))","strings are escaped","Props_Fmt Props_Layout")
m("X12","Fmt","write_str","let (w, ok) := wr (writer f) s in (FS w (fstyle f), ok).","let (w, ok) := wr (writer f) s in (FS w (fstyle f), true).","a failing writer makes the call fail","Props_Fmt")
m("X13","Fmt","andthen","let (f', ok) := a f in if ok then b f' else (f', false).","let (f', ok) := a f in let (f'', ok') := b f' in (f'', ok && ok').","nothing is written after a failure","Props_Fmt")
m("X14","Fmt","value_to_hex","wr w (s2l \"0x\")","wr w (s2l \"0X\")","hex prefix","Props_Fmt Props_Custom")
m("X15","Fmt","fmt_valuedef","| DVariant n c => fmt_variant fv n c\n","| DVariant n (Unnamed []) => fmt_name n\n    | DVariant n c => fmt_variant fv n c\n","a variant without values has brackets","Props_Fmt Props_Layout")
m("X16","Fmt","display","(if alternate then Pretty 0 else Normal) v.","(if alternate then Pretty 1 else Normal) v.","alternate starts at the margin","Props_Fmt Props_Layout Props_Parts")
# Parse
m("X17","Parse","take_while","if p c then let (a, b) := take_while p t' in (c :: a, b) else ([], t)","if p c then let (a, b) := take_while p t' in (c :: a, b) else ([], t')","take_while leaves the rest","Props_Parse")
m("X18","Parse","strip_prefix","| [] => None\n               end","| [] => Some []\n               end","a truncated keyword is not the keyword","Props_Parse")
m("X19","Parse","skip_whitespace","skip_while is_whitespace t.","skip_while (fun c => (c =? 32) || (c =? 10)) t.","any white space may stand between tokens","Props_Parse")
m("X20","Parse","digit_val","c - 48.","c - 47.","digits","Props_Parse Props_Fmt")
m("X21","Parse","ok_of","match p t with (Ok a, t') => (Ok a, t') | (Err e, t') => (Err None, t') end.\n  Definition ok_of_o","match p t with (Ok a, t') => (Ok a, t') | (Err e, t') => (Err (Some e), t') end.\n  Definition ok_of_o","an unexpected character is ExpectedValue","Props_Parse Props_Messages")
m("X22","Parse","ok_of_o","match p t with (Ok a, t') => (Ok a, t') | (Err e, t') => (Err None, t') end.\n\n  (** from_string.rs:543-554 *)","match p t with (Ok a, t') => (Ok a, t') | (Err e, t') => (Err e, t') end.\n\n  (** from_string.rs:543-554 *)","a broken quoted variant name is not a string error","Props_Parse")
m("X23","Parse","always","(Err e, t') => (Err (Some e), t') end.\n  (** [.ok()]","(Err e, t') => (Err None, t') end.\n  (** [.ok()]","a bad field name reports where it starts","Props_Parse Props_Messages")
m("X24","Parse","parse_named_composite","omap Named (parse_delimited c_lbrace c_rbrace fuel","omap Named (parse_delimited c_lbrace c_rpar fuel","braces are closed by braces","Props_Parse")
m("X25","Parse","parse_string","string_loop start t1 [] false.","string_loop (offset t1) t1 [] false.","the error of an unclosed string names the opening quote","Props_Parse Props_Messages")
m("X26","Parse","offset","total - blen t.","total - N.of_nat (length t).","locations are byte offsets","Props_Parse Props_Messages Props_Loc")
m("X27","Parse","parse_custom","(S (length s)) s.","(length s) s.","(fuel) nesting as deep as the text is parsed","Props_Parse")
m("X28","Parse","e_at_one","PErr loc (Some (loc + 1)) k","PErr loc None k","one-character errors have an end","Props_Parse Props_Messages Props_Loc")
# Ss58/Base58
m("X29","Base58","b58_alphabet",'"123456789ABCDEFGHJKLMNPQRSTUVWXYZabcdefghijkmnopqrstuvwxyz"','"123456789ABCDEFGHJKLMNPQRSTUVWXYZabcdefghijkmnopqrstuvwxzy"',"base58 alphabet","Props_Custom")
# Scale
m("X30","Scale","bits_of_word","N.odd n :: bits_of_word w' (n / 2)","N.even n :: bits_of_word w' (n / 2)","bits","Props_Decode")
m("X31","Scale","pack_bits","pad_to (bsbits st) (firstn (bsbits st) b)","firstn (bsbits st) b","padding of Msb0 words","Props_Encode Props_Decode")
m("X32","Scale","utf8_go","| O => None","| O => Some []","strings are read to the end","Props_Decode")
m("X33","Registry","bsbits","8 * bsbytes s.","8 * bsbytes s - 1.","store widths","Props_Decode Props_Encode Props_Writes")
m("X34","Decode","to_unnamed","Ok (Val (DComposite (Unnamed (fst x))) (ctxf t), snd x)","Ok (Val (DComposite (Unnamed (fst x))) (ctxf t), bs)","the bytes of a list are consumed","Props_Decode")
m("X35","Decode","decode_as_fields","visit_composite (decode fuel false) fs bs.","bind (decode_items (decode fuel false) (map snd fs) bs) (fun x => Ok (Unnamed (fst x), snd x)).","names of fields","Props_Decode")
m("X36","Trace","lift","| Err e => Err (FromDecode (CDecode e)) end.","| Err e => Err (FromDecode CCapacity) end.","the cause is reported","Props_Decode Props_Both")
m("X37","Trace","trace_as_type","trace fuel [] false t bs.","trace fuel [SIndex 0] false t bs.","the path starts at the root","Props_Decode Props_Both")
m("X38","Alloc","reserve","(fst m, n :: snd m).","(fst m, snd m ++ [n]).","room is made before the items are read","Props_Alloc")
m("X39","Alloc","l_unnamed","reserve remaining (lbind","reserve 0 (lbind","room is made for what is announced","Props_Alloc")
m("X40","Alloc","lt_composite","then reserve (N.of_nat (length fs)) (lt_named [] fs bs)","then lt_named [] fs bs","room for named fields","Props_Alloc")
# Serde
m("X41","Serde","bits_map","VMap [(bitvec_key, SrcBools b)].","VSeq false (map SrcBool b).","bit sequences are marked","Props_Serde")
m("X42","Serde","visit_string","| VChar c => Ok [c]\n    | VBytes","| VBytes","a char can be read as a String","Props_Serde Props_Foreign")
m("X43","Serde","seq_take","| [] => Err DLength","| [] => Ok ([], [])","too short is an error","Props_Serde Props_Foreign")
m("X44","Serde","visit_unit","match e with VUnit => Ok tt | _ => Err DType end.","Ok tt.","unit is only read from nothing","Props_Serde Props_Foreign")
m("X45","Serde","de_variant","bind (deserialize s HAny) (visit_variant de_value).","bind (deserialize s HEnum) (visit_variant de_value).","(Variant asks for anything)","Props_Serde Props_Foreign Props_Parts")
m("X46","Serde","ser_bits","SMap [(SStr bitvec_key, SSeq (map SBool b))].","SSeq (map SBool b).","bits are marked when written","Props_Serde")
m("X47","Serde","ser_composite_with","| Unnamed l => SSeq (map f l)","| Unnamed l => STuple (map f l)","unnamed is a sequence","Props_Serde Props_Foreign")
m("X48","Serde","de_ignored_f","| VEnum _ c => de_ignored_f f (SrcComposite c)","| VEnum _ c => Err DCustom","unknown fields may hold variants","Props_Serde")
m("X49","Serde","struct_finish","match find_field (fst m) acc with Some x => Ok x | None => snd m end","match find_field (fst m) acc with Some x => Ok x | None => Err DMissing end","absent Option is None","Props_Serde Props_Maps")
m("X50","Serde","visit_vec","match e with VSeq _ l => mapM f l | _ => Err DType end.","match e with VSeq _ l => mapM f l | VMap l => mapM (fun kv => f (snd kv)) l | _ => Err DType end.","(std) Vec from a map","Props_Serde Props_Foreign")
m("X51","SerdeCalls","us_new","us_values := [] |}.\n(** serializer.rs:319-325. *)","us_values := [unnamed_composite []] |}.\n(** serializer.rs:319-325. *)","starts empty","Props_Serde Props_Parts")
m("X52","SerdeCalls","ns_call","| CField k x => ns_field s k x","| CField k x => ns_field {| ns_variant := ns_variant s; ns_values := ns_values s; ns_key := None |} k x","a field does not drop the pending key","Props_Serde Props_Parts")
m("X53","SerdeContent","buffer_f","| VEnum _ _ | VEnumOf _ _ => Err DCustom","| VEnum n c => rmap (fun k => KMap [(n, k)]) (buffer_f f (SrcComposite c)) | VEnumOf _ _ => Err DCustom","variants cannot be buffered","Props_Content")
m("X54","SerdeContent","de_internally_tagged","| VSeq _ [] => Err DMissing","| VSeq _ [] => body tag (KSeq [])","no tag is an error","Props_Content")
m("X55","SerdeContent","split_tag","| Some _ => Err DDuplicate\n            | None => bind (de_string s)","| Some n => split_tag tag l' (Some n) rest\n            | None => bind (de_string s)","two tags are an error","Props_Content")
m("X56","FmtParts","display_primitive","(fmt_primitive string_wr p)","(fun f => match p with PString s => write_str string_wr s f | _ => fmt_primitive string_wr p f end)","Display of a primitive string is quoted","Props_Parts")
m("X57","Messages","kind_text",'s2l "Custom error: " ++ m','m',"custom errors are marked","Props_Messages")
m("X58","Messages","kind_text",'s2l "Missing field separator; expected " ++ [c]','s2l "Missing field separator"',"the separator is named","Props_Messages")
m("X59","Messages","closing_quote_text","show_N n.\nDefinition kind_text","show_N (n + 1).\nDefinition kind_text","position of the quote","Props_Messages")
m("X60","Macro","values_with","| Some x, Some r => Some (x :: r)\n        | _, _ => None\n        end\n    end.\n  Fixpoint entries_with","| Some x, Some r => Some (r ++ [x])\n        | _, _ => None\n        end\n    end.\n  Fixpoint entries_with","order of the values","Props_Macro")
json.dump(M,open('mu8.json','w'))
for x in M:
    t=open('/verif/rocq/theories/'+x['file']+'.v').read()
    if t.count(x['old'])!=1: print(x['id'],t.count(x['old']))
