[{"id": "X1", "file": "Value", "definition": "from_int", "old": "PI128 (as_i128_cast n).", "new": "PU128 (as_u128_cast n).", "claim": "From<i..> gives a signed primitive", "targets": ["Props_Value"]}, {"id": "X2", "file": "Value", "definition": "named_composite", "old": "value unit := Val (DComposite (Named l)) tt.", "new": "value unit := Val (DComposite (match l with [] => Unnamed [] | _ => Named l end)) tt.", "claim": "named_composite([]) is named", "targets": ["Props_Value", "Props_Parse", "Props_Serde"]}, {"id": "X3", "file": "Value", "definition": "as_bool", "old": "DPrim (PBool b) => Some b | _ => None", "new": "DPrim (PBool b) => Some b | DBits [b] => Some b | _ => None", "claim": "as_bool answers only for booleans", "targets": ["Props_Value"]}, {"id": "X4", "file": "Value", "definition": "as_str", "old": "DPrim (PString s) => Some s | _ => None", "new": "DPrim (PString s) => Some s | DPrim (PChar c) => Some [c] | _ => None", "claim": "as_str answers only for strings", "targets": ["Props_Value"]}, {"id": "X5", "file": "Value", "definition": "at_opt", "old": "obind o (fun v => at_value v loc).", "new": "match o with Some v => match at_value v loc with Some w => Some w | None => Some v end | None => None end.", "claim": "a missing step of a path gives nothing", "targets": ["Props_Value"]}, {"id": "X6", "file": "Value", "definition": "children", "old": "| DVariant _ c => values c\n  | DBits", "new": "| DVariant _ c => []\n  | DBits", "claim": "(specification helper) children", "targets": ["Props_Value"]}, {"id": "X7", "file": "Value", "definition": "remove_context/map_ctx", "old": "map_ctx (fun _ => tt) v.", "new": "match v with Val d _ => Val (vdef_map (fun w => map_ctx (fun _ => tt) w) (match d with DVariant n (Named []) => DVariant n (Unnamed []) | d => d end)) tt end.", "claim": "remove_context keeps the value", "targets": ["Props_Value"]}, {"id": "X8", "file": "Chars", "definition": "is_alphabetic", "old": "if c <? 128 then is_ascii_alpha c else", "new": "if c <? 128 then is_ascii_alpha c || (c =? 95) else", "claim": "an identifier does not begin with an underscore", "targets": ["Props_Fmt", "Props_Parse", "Props_Layout"]}, {"id": "X9", "file": "Chars", "definition": "is_alphanumeric", "old": "(if c <? 128 then is_digit c else u_numeric U c)", "new": "(if c <? 128 then is_digit c || (c =? 45) else u_numeric U c)", "claim": "- is not part of an identifier", "targets": ["Props_Fmt", "Props_Parse", "Props_Layout"]}, {"id": "X10", "file": "Fmt", "definition": "newline", "old": "match fstyle f with Compact | Normal => ret f | Pretty n => write_newline n f end.", "new": "match fstyle f with Compact | Normal => ret f | Pretty n => write_newline (Nat.pred n) f end.", "claim": "indentation of unnamed items", "targets": ["Props_Layout", "Props_Fmt"]}, {"id": "X11", "file": "Fmt", "definition": "fmt_string", "old": "(andthen (seqs (map fmt_escaped s)) (write_char c_dquote))", "new": "(andthen (seqs (map write_char s)) (write_char c_dquote))", "claim": "strings are escaped", "targets": ["Props_Fmt", "Props_Layout"]}, {"id": "X12", "file": "Fmt", "definition": "write_str", "old": "let (w, ok) := wr (writer f) s in (FS w (fstyle f), ok).", "new": "let (w, ok) := wr (writer f) s in (FS w (fstyle f), true).", "claim": "a failing writer makes the call fail", "targets": ["Props_Fmt"]}, {"id": "X13", "file": "Fmt", "definition": "andthen", "old": "let (f', ok) := a f in if ok then b f' else (f', false).", "new": "let (f', ok) := a f in let (f'', ok') := b f' in (f'', ok && ok').", "claim": "nothing is written after a failure", "targets": ["Props_Fmt"]}, {"id": "X14", "file": "Fmt", "definition": "value_to_hex", "old": "wr w (s2l \"0x\")", "new": "wr w (s2l \"0X\")", "claim": "hex prefix", "targets": ["Props_Fmt", "Props_Custom"]}, {"id": "X15", "file": "Fmt", "definition": "fmt_valuedef", "old": "| DVariant n c => fmt_variant fv n c\n", "new": "| DVariant n (Unnamed []) => fmt_name n\n    | DVariant n c => fmt_variant fv n c\n", "claim": "a variant without values has brackets", "targets": ["Props_Fmt", "Props_Layout"]}, {"id": "X16", "file": "Fmt", "definition": "display", "old": "(if alternate then Pretty 0 else Normal) v.", "new": "(if alternate then Pretty 1 else Normal) v.", "claim": "alternate starts at the margin", "targets": ["Props_Fmt", "Props_Layout", "Props_Parts"]}, {"id": "X17", "file": "Parse", "definition": "take_while", "old": "if p c then let (a, b) := take_while p t' in (c :: a, b) else ([], t)", "new": "if p c then let (a, b) := take_while p t' in (c :: a, b) else ([], t')", "claim": "take_while leaves the rest", "targets": ["Props_Parse"]}, {"id": "X18", "file": "Parse", "definition": "strip_prefix", "old": "| [] => None\n               end", "new": "| [] => Some []\n               end", "claim": "a truncated keyword is not the keyword", "targets": ["Props_Parse"]}, {"id": "X19", "file": "Parse", "definition": "skip_whitespace", "old": "skip_while is_whitespace t.", "new": "skip_while (fun c => (c =? 32) || (c =? 10)) t.", "claim": "any white space may stand between tokens", "targets": ["Props_Parse"]}, {"id": "X20", "file": "Parse", "definition": "digit_val", "old": "c - 48.", "new": "c - 47.", "claim": "digits", "targets": ["Props_Parse", "Props_Fmt"]}, {"id": "X21", "file": "Parse", "definition": "ok_of", "old": "match p t with (Ok a, t') => (Ok a, t') | (Err e, t') => (Err None, t') end.\n  Definition ok_of_o", "new": "match p t with (Ok a, t') => (Ok a, t') | (Err e, t') => (Err (Some e), t') end.\n  Definition ok_of_o", "claim": "an unexpected character is ExpectedValue", "targets": ["Props_Parse", "Props_Messages"]}, {"id": "X22", "file": "Parse", "definition": "ok_of_o", "old": "match p t with (Ok a, t') => (Ok a, t') | (Err e, t') => (Err None, t') end.\n\n  (** from_string.rs:543-554 *)", "new": "match p t with (Ok a, t') => (Ok a, t') | (Err e, t') => (Err e, t') end.\n\n  (** from_string.rs:543-554 *)", "claim": "a broken quoted variant name is not a string error", "targets": ["Props_Parse"]}, {"id": "X23", "file": "Parse", "definition": "always", "old": "(Err e, t') => (Err (Some e), t') end.\n  (** [.ok()]", "new": "(Err e, t') => (Err None, t') end.\n  (** [.ok()]", "claim": "a bad field name reports where it starts", "targets": ["Props_Parse", "Props_Messages"]}, {"id": "X24", "file": "Parse", "definition": "parse_named_composite", "old": "omap Named (parse_delimited c_lbrace c_rbrace fuel", "new": "omap Named (parse_delimited c_lbrace c_rpar fuel", "claim": "braces are closed by braces", "targets": ["Props_Parse"]}, {"id": "X25", "file": "Parse", "definition": "parse_string", "old": "string_loop start t1 [] false.", "new": "string_loop (offset t1) t1 [] false.", "claim": "the error of an unclosed string names the opening quote", "targets": ["Props_Parse", "Props_Messages"]}, {"id": "X26", "file": "Parse", "definition": "offset", "old": "total - blen t.", "new": "total - N.of_nat (length t).", "claim": "locations are byte offsets", "targets": ["Props_Parse", "Props_Messages", "Props_Loc"]}, {"id": "X27", "file": "Parse", "definition": "parse_custom", "old": "(S (length s)) s.", "new": "(length s) s.", "claim": "(fuel) nesting as deep as the text is parsed", "targets": ["Props_Parse"]}, {"id": "X28", "file": "Parse", "definition": "e_at_one", "old": "PErr loc (Some (loc + 1)) k", "new": "PErr loc None k", "claim": "one-character errors have an end", "targets": ["Props_Parse", "Props_Messages", "Props_Loc"]}, {"id": "X29", "file": "Base58", "definition": "b58_alphabet", "old": "\"123456789ABCDEFGHJKLMNPQRSTUVWXYZabcdefghijkmnopqrstuvwxyz\"", "new": "\"123456789ABCDEFGHJKLMNPQRSTUVWXYZabcdefghijkmnopqrstuvwxzy\"", "claim": "base58 alphabet", "targets": ["Props_Custom"]}, {"id": "X30", "file": "Scale", "definition": "bits_of_word", "old": "N.odd n :: bits_of_word w' (n / 2)", "new": "N.even n :: bits_of_word w' (n / 2)", "claim": "bits", "targets": ["Props_Decode"]}, {"id": "X31", "file": "Scale", "definition": "pack_bits", "old": "pad_to (bsbits st) (firstn (bsbits st) b)", "new": "firstn (bsbits st) b", "claim": "padding of Msb0 words", "targets": ["Props_Encode", "Props_Decode"]}, {"id": "X32", "file": "Scale", "definition": "utf8_go", "old": "| O => None", "new": "| O => Some []", "claim": "strings are read to the end", "targets": ["Props_Decode"]}, {"id": "X33", "file": "Registry", "definition": "bsbits", "old": "8 * bsbytes s.", "new": "8 * bsbytes s - 1.", "claim": "store widths", "targets": ["Props_Decode", "Props_Encode", "Props_Writes"]}, {"id": "X34", "file": "Decode", "definition": "to_unnamed", "old": "Ok (Val (DComposite (Unnamed (fst x))) (ctxf t), snd x)", "new": "Ok (Val (DComposite (Unnamed (fst x))) (ctxf t), bs)", "claim": "the bytes of a list are consumed", "targets": ["Props_Decode"]}, {"id": "X35", "file": "Decode", "definition": "decode_as_fields", "old": "visit_composite (decode fuel false) fs bs.", "new": "bind (decode_items (decode fuel false) (map snd fs) bs) (fun x => Ok (Unnamed (fst x), snd x)).", "claim": "names of fields", "targets": ["Props_Decode"]}, {"id": "X36", "file": "Trace", "definition": "lift", "old": "| Err e => Err (FromDecode (CDecode e)) end.", "new": "| Err e => Err (FromDecode CCapacity) end.", "claim": "the cause is reported", "targets": ["Props_Decode", "Props_Both"]}, {"id": "X37", "file": "Trace", "definition": "trace_as_type", "old": "trace fuel [] false t bs.", "new": "trace fuel [SIndex 0] false t bs.", "claim": "the path starts at the root", "targets": ["Props_Decode", "Props_Both"]}, {"id": "X38", "file": "Alloc", "definition": "reserve", "old": "(fst m, n :: snd m).", "new": "(fst m, snd m ++ [n]).", "claim": "room is made before the items are read", "targets": ["Props_Alloc"]}, {"id": "X39", "file": "Alloc", "definition": "l_unnamed", "old": "reserve remaining (lbind", "new": "reserve 0 (lbind", "claim": "room is made for what is announced", "targets": ["Props_Alloc"]}, {"id": "X40", "file": "Alloc", "definition": "lt_composite", "old": "then reserve (N.of_nat (length fs)) (lt_named [] fs bs)", "new": "then lt_named [] fs bs", "claim": "room for named fields", "targets": ["Props_Alloc"]}, {"id": "X41", "file": "Serde", "definition": "bits_map", "old": "VMap [(bitvec_key, SrcBools b)].", "new": "VSeq false (map SrcBool b).", "claim": "bit sequences are marked", "targets": ["Props_Serde"]}, {"id": "X42", "file": "Serde", "definition": "visit_string", "old": "| VChar c => Ok [c]\n    | VBytes", "new": "| VBytes", "claim": "a char can be read as a String", "targets": ["Props_Serde", "Props_Foreign"]}, {"id": "X43", "file": "Serde", "definition": "seq_take", "old": "| [] => Err DLength", "new": "| [] => Ok ([], [])", "claim": "too short is an error", "targets": ["Props_Serde", "Props_Foreign"]}, {"id": "X44", "file": "Serde", "definition": "visit_unit", "old": "match e with VUnit => Ok tt | _ => Err DType end.", "new": "Ok tt.", "claim": "unit is only read from nothing", "targets": ["Props_Serde", "Props_Foreign"]}, {"id": "X45", "file": "Serde", "definition": "de_variant", "old": "bind (deserialize s HAny) (visit_variant de_value).", "new": "bind (deserialize s HEnum) (visit_variant de_value).", "claim": "(Variant asks for anything)", "targets": ["Props_Serde", "Props_Foreign", "Props_Parts"]}, {"id": "X46", "file": "Serde", "definition": "ser_bits", "old": "SMap [(SStr bitvec_key, SSeq (map SBool b))].", "new": "SSeq (map SBool b).", "claim": "bits are marked when written", "targets": ["Props_Serde"]}, {"id": "X47", "file": "Serde", "definition": "ser_composite_with", "old": "| Unnamed l => SSeq (map f l)", "new": "| Unnamed l => STuple (map f l)", "claim": "unnamed is a sequence", "targets": ["Props_Serde", "Props_Foreign"]}, {"id": "X48", "file": "Serde", "definition": "de_ignored_f", "old": "| VEnum _ c => de_ignored_f f (SrcComposite c)", "new": "| VEnum _ c => Err DCustom", "claim": "unknown fields may hold variants", "targets": ["Props_Serde"]}, {"id": "X49", "file": "Serde", "definition": "struct_finish", "old": "match find_field (fst m) acc with Some x => Ok x | None => snd m end", "new": "match find_field (fst m) acc with Some x => Ok x | None => Err DMissing end", "claim": "absent Option is None", "targets": ["Props_Serde", "Props_Maps"]}, {"id": "X50", "file": "Serde", "definition": "visit_vec", "old": "match e with VSeq _ l => mapM f l | _ => Err DType end.", "new": "match e with VSeq _ l => mapM f l | VMap l => mapM (fun kv => f (snd kv)) l | _ => Err DType end.", "claim": "(std) Vec from a map", "targets": ["Props_Serde", "Props_Foreign"]}, {"id": "X51", "file": "SerdeCalls", "definition": "us_new", "old": "us_values := [] |}.\n(** serializer.rs:319-325. *)", "new": "us_values := [unnamed_composite []] |}.\n(** serializer.rs:319-325. *)", "claim": "starts empty", "targets": ["Props_Serde", "Props_Parts"]}, {"id": "X52", "file": "SerdeCalls", "definition": "ns_call", "old": "| CField k x => ns_field s k x", "new": "| CField k x => ns_field {| ns_variant := ns_variant s; ns_values := ns_values s; ns_key := None |} k x", "claim": "a field does not drop the pending key", "targets": ["Props_Serde", "Props_Parts"]}, {"id": "X53", "file": "SerdeContent", "definition": "buffer_f", "old": "| VEnum _ _ | VEnumOf _ _ => Err DCustom", "new": "| VEnum n c => rmap (fun k => KMap [(n, k)]) (buffer_f f (SrcComposite c)) | VEnumOf _ _ => Err DCustom", "claim": "variants cannot be buffered", "targets": ["Props_Content"]}, {"id": "X54", "file": "SerdeContent", "definition": "de_internally_tagged", "old": "| VSeq _ [] => Err DMissing", "new": "| VSeq _ [] => body tag (KSeq [])", "claim": "no tag is an error", "targets": ["Props_Content"]}, {"id": "X55", "file": "SerdeContent", "definition": "split_tag", "old": "| Some _ => Err DDuplicate\n            | None => bind (de_string s)", "new": "| Some n => split_tag tag l' (Some n) rest\n            | None => bind (de_string s)", "claim": "two tags are an error", "targets": ["Props_Content"]}, {"id": "X56", "file": "FmtParts", "definition": "display_primitive", "old": "(fmt_primitive string_wr p)", "new": "(fun f => match p with PString s => write_str string_wr s f | _ => fmt_primitive string_wr p f end)", "claim": "Display of a primitive string is quoted", "targets": ["Props_Parts"]}, {"id": "X57", "file": "Messages", "definition": "kind_text", "old": "s2l \"Custom error: \" ++ m", "new": "m", "claim": "custom errors are marked", "targets": ["Props_Messages"]}, {"id": "X58", "file": "Messages", "definition": "kind_text", "old": "s2l \"Missing field separator; expected \" ++ [c]", "new": "s2l \"Missing field separator\"", "claim": "the separator is named", "targets": ["Props_Messages"]}, {"id": "X59", "file": "Messages", "definition": "closing_quote_text", "old": "show_N n.\nDefinition kind_text", "new": "show_N (n + 1).\nDefinition kind_text", "claim": "position of the quote", "targets": ["Props_Messages"]}, {"id": "X60", "file": "Macro", "definition": "values_with", "old": "| Some x, Some r => Some (x :: r)\n        | _, _ => None\n        end\n    end.\n  Fixpoint entries_with", "new": "| Some x, Some r => Some (r ++ [x])\n        | _, _ => None\n        end\n    end.\n  Fixpoint entries_with", "claim": "order of the values", "targets": ["Props_Macro"]}]