import json
M=[]
def m(id,file,d,old,new,claim,targets): M.append(dict(id=id,file=file,definition=d,old=old,new=new,claim=claim,targets=targets.split()))
# Equality
m("EQ1","Equality","all2","| _, _ => false\n    end.\nEnd All2.","| _, _ => true\n    end.\nEnd All2.","lists of different lengths are unequal","Props_Equality")
m("EQ2","Equality","prim_eq","| PString a, PString b => str_eqb a b","| PString a, PString b => str_eqb a b || str_eqb b []","strings are compared","Props_Equality")
m("EQ3","Equality","prim_eq","| PI128 a, PI128 b => (a =? b)%Z","| PI128 a, PI128 b => (Z.abs a =? Z.abs b)%Z","signs are compared","Props_Equality")
m("EQ4","Equality","prim_eq","  | _, _ => false\n  end.\n\nSection Eq.","  | PU128 a, PI128 b => (Z.of_N a =? b)%Z\n  | _, _ => false\n  end.\n\nSection Eq.","values of different primitive variants are unequal","Props_Equality")
m("EQ5","Equality","composite_eq","str_eqb (fst a) (fst b) && f (snd a) (snd b)","f (snd a) (snd b)","field names are compared","Props_Equality")
m("EQ6","Equality","vdef_eq","str_eqb n1 n2 && composite_eq f c1 c2","composite_eq f c1 c2","variant names are compared","Props_Equality")
m("EQ7","Equality","value_eq","vdef_eq value_eq d e && ctx_eq c c'","vdef_eq value_eq d e && (ctx_eq c c' || true)","contexts are compared","Props_Equality")
m("EQ8","Equality","vdef_eq","    | DBits b1, DBits b2 => all2 Bool.eqb b1 b2","    | DBits b1, DBits b2 => (length b1 =? length b2)%nat","bits are compared","Props_Equality")
m("EQ9","Equality","value_clone","(ctx_clone c) end.","c end.","contexts are cloned","Props_Equality")
m("EQ10","Equality","composite_eq","    | _, _ => false\n    end.\n  (** [ValueDef]","    | Named l1, Unnamed l2 => all2 (fun a b => f (snd a) b) l1 l2\n    | _, _ => false\n    end.\n  (** [ValueDef]","named and unnamed composites are unequal","Props_Equality")
# MacroDepth
m("MD1","MacroDepth","layer","match m with EMac _ => 0 | EUser _ => 1 end.","match m with EMac _ => 0 | EUser _ => 0 end.","a user's expression is one invocation deeper","Props_MacroDepth")
m("MD2","MacroDepth","after_value_d","Some (acc ++ [(S (layer m), m)], 1%nat)","Some (acc ++ [(layer m, m)], 1%nat)","the last value is wrapped once more","Props_MacroDepth")
m("MD3","MacroDepth","after_value_d","| TComma :: r => add 1 (k (acc ++ [(layer m, m)]) r) ","| TComma :: r => add 0 (k (acc ++ [(layer m, m)]) r) ","each comma costs an invocation","Props_MacroDepth")
m("MD4","MacroDepth","named_d","| _, t :: r => add 1 (named_d f acc (partial ++ [t]) r)","| _, t :: r => named_d f acc (partial ++ [t]) r","munching a key costs an invocation per token","Props_MacroDepth")
m("MD5","MacroDepth","values_d","Some (x :: r, Nat.max (w + n) d)","Some (x :: r, w + n + d)%nat","only the deepest element counts","Props_MacroDepth")
m("MD6","MacroDepth","entries_d","Some ((k, x) :: r, Nat.max (w + n) d)","Some ((k, x) :: r, Nat.max n d)","the invocations around an entry count","Props_MacroDepth")
m("MD7","MacroDepth","build","(1 + s + (1 + vd) + d)%nat","(1 + s + vd + d)%nat","vec_wrapper! is one level","Props_MacroDepth")
m("MD8","MacroDepth","expand_d","Some (from e, (1 + ud e)%nat)","Some (from e, 1%nat)","macros inside the expression count","Props_MacroDepth")
m("MD9","MacroDepth","compiles_within","(1 + n <= limit)%nat","(n <= limit)%nat","value! itself is one level","Props_MacroDepth")
m("MD10","MacroDepth","after_entry_d","| [] => Some (acc ++ [(key_name key, (layer m, m))], 1%nat)","| [] => Some (acc, 1%nat)","the last entry is kept","Props_MacroDepth")
m("MD11","MacroDepth","named_d","POk key [] => match value_rules P (next key) r with Some x => add 1 x | None => None end","POk key [] => match value_rules P (next key) r with Some x => x | None => None end","a parenthesised key costs one more invocation","Props_MacroDepth")
m("MD12","MacroDepth","unnamed_d","| TGroup Paren a :: r => next (EMac [TGroup Paren a]) r ","| TGroup Paren a :: r => next (EMac [TGroup Brace a]) r ","a nested tuple stays a tuple","Props_MacroDepth")
# TraceWork
m("TW1","TraceWork","kt_unnamed","| [] => (Ok (Unnamed vals, bs), copy_path (length path))","| [] => (Ok (Unnamed vals, bs), copy_path (length path * length path))","one copy of the path at the end of a loop","Props_TraceWork")
m("TW2","TraceWork","kt_unnamed","tthen (copy_path (length path)) (tthen (snd m) (report (length path) vals e)))","tthen (copy_path (length path)) (tthen (snd m) (tthen (clone_values vals) (report (length path) vals e))))","values are cloned once per error (here twice)","Props_TraceWork")
m("TW3","TraceWork","kt_named","(fst k, tthen (copy_path (length path)) (tthen (snd m) (snd k)))\n          end\n      end.\n    (** [visit_composite]","(fst k, tthen (copy_path (length path)) (tthen (snd m) (tthen (clone_values (map snd vals)) (snd k))))\n          end\n      end.\n    (** [visit_composite]","a successful decoding clones nothing","Props_TraceWork")
m("TW4","TraceWork","ktrace","(r, within_tcall n)\n    end.","(r, within_tcall (tthen n n))\n    end.","each value is decoded once (here counted twice)","Props_TraceWork")
m("TW5","TraceWork","kt_unnamed_composite","if MAX_CAPACITY <? remaining then simply (Err (FromDecode CCapacity)) else kt_unnamed 0 [] ts bs.","kt_unnamed 0 [] ts bs.","the capacity check (results as Trace.v)","Props_TraceWork")
m("TW6","TraceWork","kt_composite","if (0 <? length fs)%nat && negb (has_unnamed fs) then kt_named [] fs bs","if negb (has_unnamed fs) then kt_named [] fs bs","empty structs are unnamed","Props_TraceWork")
m("TW7","TraceWork","copy_path","TWork idle (N.of_nat n) 0.","TWork idle 1 0.","a path is copied segment by segment","Props_TraceWork")
m("TW8","TraceWork","ktrace","| ResTy (TCompact t') => ktrace f path true t' bs","| ResTy (TCompact t') => let m := ktrace f path true t' bs in (fst m, tthen (snd m) (snd m))","the inside of a compact is decoded once","Props_TraceWork")
m("TW9","TraceWork","kt_unnamed","with_outer (path ++ [SIndex idx]) (Unnamed vals) (fun v => Unnamed (vals ++ [v])) e),\n                      tthen (copy_path (length path)) (tthen (snd m) (report (length path) vals e)))","with_outer (path ++ [SIndex idx]) (Unnamed vals) (fun v => Unnamed [v]) e),\n                      tthen (copy_path (length path)) (tthen (snd m) (report (length path) vals e)))","what was decoded before stays in the report","Props_TraceWork")
m("TW10","TraceWork","kt_unnamed","let k := kt_unnamed (S idx) (vals ++ [v]) ts' bs' in","let k := kt_unnamed (S idx) (v :: vals) ts' bs' in","items stay in order","Props_TraceWork")
# vocabulary and slow ones
m("VO1","Value","prim_wf","(n <? 2 ^ 128)%N","(n <? 2 ^ 129)%N","u128 has 128 bits","Props_Vocab")
m("VO2","Value","prim_wf","(n <? 2 ^ 128)%N","(n <? 3 ^ 128)%N","u128 has 128 bits","Props_Vocab")
m("VO3","Chars","is_whitespace","(c =? 32) || (c =? 0x85)","(c =? 32) && (c =? 0x85)","space is white space","Props_Vocab")
m("VO4","Chars","is_ascii_alpha","(c <=? 90)","(c <? 90)","Z is a letter","Props_Vocab")
m("VO5","Chars","c_lt","c_bslash : char := 92","c_bslash : char := 93","backslash is U+005C","Props_Vocab")
m("VO6","Chars","is_digit","(c <=? 57)","(c <? 57)","9 is a digit","Props_Vocab")
for x in M:
    s=open('/verif/rocq/theories/%s.v'%x['file']).read()
    if s.count(x['old'])!=1: print("BAD",x['id'],s.count(x['old']))
json.dump(M,open('/tmp/gen/mu10.json','w'),indent=1)
print(len(M))
