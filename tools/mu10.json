[
 {
  "id": "EQ1",
  "file": "Equality",
  "definition": "all2",
  "old": "| _, _ => false\n    end.\nEnd All2.",
  "new": "| _, _ => true\n    end.\nEnd All2.",
  "claim": "lists of different lengths are unequal",
  "targets": [
   "Props_Equality"
  ]
 },
 {
  "id": "EQ2",
  "file": "Equality",
  "definition": "prim_eq",
  "old": "| PString a, PString b => str_eqb a b",
  "new": "| PString a, PString b => str_eqb a b || str_eqb b []",
  "claim": "strings are compared",
  "targets": [
   "Props_Equality"
  ]
 },
 {
  "id": "EQ3",
  "file": "Equality",
  "definition": "prim_eq",
  "old": "| PI128 a, PI128 b => (a =? b)%Z",
  "new": "| PI128 a, PI128 b => (Z.abs a =? Z.abs b)%Z",
  "claim": "signs are compared",
  "targets": [
   "Props_Equality"
  ]
 },
 {
  "id": "EQ4",
  "file": "Equality",
  "definition": "prim_eq",
  "old": "  | _, _ => false\n  end.\n\nSection Eq.",
  "new": "  | PU128 a, PI128 b => (Z.of_N a =? b)%Z\n  | _, _ => false\n  end.\n\nSection Eq.",
  "claim": "values of different primitive variants are unequal",
  "targets": [
   "Props_Equality"
  ]
 },
 {
  "id": "EQ5",
  "file": "Equality",
  "definition": "composite_eq",
  "old": "str_eqb (fst a) (fst b) && f (snd a) (snd b)",
  "new": "f (snd a) (snd b)",
  "claim": "field names are compared",
  "targets": [
   "Props_Equality"
  ]
 },
 {
  "id": "EQ6",
  "file": "Equality",
  "definition": "vdef_eq",
  "old": "str_eqb n1 n2 && composite_eq f c1 c2",
  "new": "composite_eq f c1 c2",
  "claim": "variant names are compared",
  "targets": [
   "Props_Equality"
  ]
 },
 {
  "id": "EQ7",
  "file": "Equality",
  "definition": "value_eq",
  "old": "vdef_eq value_eq d e && ctx_eq c c'",
  "new": "vdef_eq value_eq d e && (ctx_eq c c' || true)",
  "claim": "contexts are compared",
  "targets": [
   "Props_Equality"
  ]
 },
 {
  "id": "EQ8",
  "file": "Equality",
  "definition": "vdef_eq",
  "old": "    | DBits b1, DBits b2 => all2 Bool.eqb b1 b2",
  "new": "    | DBits b1, DBits b2 => (length b1 =? length b2)%nat",
  "claim": "bits are compared",
  "targets": [
   "Props_Equality"
  ]
 },
 {
  "id": "EQ9",
  "file": "Equality",
  "definition": "value_clone",
  "old": "(ctx_clone c) end.",
  "new": "c end.",
  "claim": "contexts are cloned",
  "targets": [
   "Props_Equality"
  ]
 },
 {
  "id": "EQ10",
  "file": "Equality",
  "definition": "composite_eq",
  "old": "    | _, _ => false\n    end.\n  (** [ValueDef]",
  "new": "    | Named l1, Unnamed l2 => all2 (fun a b => f (snd a) b) l1 l2\n    | _, _ => false\n    end.\n  (** [ValueDef]",
  "claim": "named and unnamed composites are unequal",
  "targets": [
   "Props_Equality"
  ]
 },
 {
  "id": "MD1",
  "file": "MacroDepth",
  "definition": "layer",
  "old": "match m with EMac _ => 0 | EUser _ => 1 end.",
  "new": "match m with EMac _ => 0 | EUser _ => 0 end.",
  "claim": "a user's expression is one invocation deeper",
  "targets": [
   "Props_MacroDepth"
  ]
 },
 {
  "id": "MD2",
  "file": "MacroDepth",
  "definition": "after_value_d",
  "old": "Some (acc ++ [(S (layer m), m)], 1%nat)",
  "new": "Some (acc ++ [(layer m, m)], 1%nat)",
  "claim": "the last value is wrapped once more",
  "targets": [
   "Props_MacroDepth"
  ]
 },
 {
  "id": "MD3",
  "file": "MacroDepth",
  "definition": "after_value_d",
  "old": "| TComma :: r => add 1 (k (acc ++ [(layer m, m)]) r) ",
  "new": "| TComma :: r => add 0 (k (acc ++ [(layer m, m)]) r) ",
  "claim": "each comma costs an invocation",
  "targets": [
   "Props_MacroDepth"
  ]
 },
 {
  "id": "MD4",
  "file": "MacroDepth",
  "definition": "named_d",
  "old": "| _, t :: r => add 1 (named_d f acc (partial ++ [t]) r)",
  "new": "| _, t :: r => named_d f acc (partial ++ [t]) r",
  "claim": "munching a key costs an invocation per token",
  "targets": [
   "Props_MacroDepth"
  ]
 },
 {
  "id": "MD5",
  "file": "MacroDepth",
  "definition": "values_d",
  "old": "Some (x :: r, Nat.max (w + n) d)",
  "new": "Some (x :: r, w + n + d)%nat",
  "claim": "only the deepest element counts",
  "targets": [
   "Props_MacroDepth"
  ]
 },
 {
  "id": "MD6",
  "file": "MacroDepth",
  "definition": "entries_d",
  "old": "Some ((k, x) :: r, Nat.max (w + n) d)",
  "new": "Some ((k, x) :: r, Nat.max n d)",
  "claim": "the invocations around an entry count",
  "targets": [
   "Props_MacroDepth"
  ]
 },
 {
  "id": "MD7",
  "file": "MacroDepth",
  "definition": "build",
  "old": "(1 + s + (1 + vd) + d)%nat",
  "new": "(1 + s + vd + d)%nat",
  "claim": "vec_wrapper! is one level",
  "targets": [
   "Props_MacroDepth"
  ]
 },
 {
  "id": "MD8",
  "file": "MacroDepth",
  "definition": "expand_d",
  "old": "Some (from e, (1 + ud e)%nat)",
  "new": "Some (from e, 1%nat)",
  "claim": "macros inside the expression count",
  "targets": [
   "Props_MacroDepth"
  ]
 },
 {
  "id": "MD9",
  "file": "MacroDepth",
  "definition": "compiles_within",
  "old": "(1 + n <= limit)%nat",
  "new": "(n <= limit)%nat",
  "claim": "value! itself is one level",
  "targets": [
   "Props_MacroDepth"
  ]
 },
 {
  "id": "MD10",
  "file": "MacroDepth",
  "definition": "after_entry_d",
  "old": "| [] => Some (acc ++ [(key_name key, (layer m, m))], 1%nat)",
  "new": "| [] => Some (acc, 1%nat)",
  "claim": "the last entry is kept",
  "targets": [
   "Props_MacroDepth"
  ]
 },
 {
  "id": "MD11",
  "file": "MacroDepth",
  "definition": "named_d",
  "old": "POk key [] => match value_rules P (next key) r with Some x => add 1 x | None => None end",
  "new": "POk key [] => match value_rules P (next key) r with Some x => x | None => None end",
  "claim": "a parenthesised key costs one more invocation",
  "targets": [
   "Props_MacroDepth"
  ]
 },
 {
  "id": "MD12",
  "file": "MacroDepth",
  "definition": "unnamed_d",
  "old": "| TGroup Paren a :: r => next (EMac [TGroup Paren a]) r ",
  "new": "| TGroup Paren a :: r => next (EMac [TGroup Brace a]) r ",
  "claim": "a nested tuple stays a tuple",
  "targets": [
   "Props_MacroDepth"
  ]
 },
 {
  "id": "TW1",
  "file": "TraceWork",
  "definition": "kt_unnamed",
  "old": "| [] => (Ok (Unnamed vals, bs), copy_path (length path))",
  "new": "| [] => (Ok (Unnamed vals, bs), copy_path (length path * length path))",
  "claim": "one copy of the path at the end of a loop",
  "targets": [
   "Props_TraceWork"
  ]
 },
 {
  "id": "TW2",
  "file": "TraceWork",
  "definition": "kt_unnamed",
  "old": "tthen (copy_path (length path)) (tthen (snd m) (report (length path) vals e)))",
  "new": "tthen (copy_path (length path)) (tthen (snd m) (tthen (clone_values vals) (report (length path) vals e))))",
  "claim": "values are cloned once per error (here twice)",
  "targets": [
   "Props_TraceWork"
  ]
 },
 {
  "id": "TW3",
  "file": "TraceWork",
  "definition": "kt_named",
  "old": "(fst k, tthen (copy_path (length path)) (tthen (snd m) (snd k)))\n          end\n      end.\n    (** [visit_composite]",
  "new": "(fst k, tthen (copy_path (length path)) (tthen (snd m) (tthen (clone_values (map snd vals)) (snd k))))\n          end\n      end.\n    (** [visit_composite]",
  "claim": "a successful decoding clones nothing",
  "targets": [
   "Props_TraceWork"
  ]
 },
 {
  "id": "TW4",
  "file": "TraceWork",
  "definition": "ktrace",
  "old": "(r, within_tcall n)\n    end.",
  "new": "(r, within_tcall (tthen n n))\n    end.",
  "claim": "each value is decoded once (here counted twice)",
  "targets": [
   "Props_TraceWork"
  ]
 },
 {
  "id": "TW5",
  "file": "TraceWork",
  "definition": "kt_unnamed_composite",
  "old": "if MAX_CAPACITY <? remaining then simply (Err (FromDecode CCapacity)) else kt_unnamed 0 [] ts bs.",
  "new": "kt_unnamed 0 [] ts bs.",
  "claim": "the capacity check (results as Trace.v)",
  "targets": [
   "Props_TraceWork"
  ]
 },
 {
  "id": "TW6",
  "file": "TraceWork",
  "definition": "kt_composite",
  "old": "if (0 <? length fs)%nat && negb (has_unnamed fs) then kt_named [] fs bs",
  "new": "if negb (has_unnamed fs) then kt_named [] fs bs",
  "claim": "empty structs are unnamed",
  "targets": [
   "Props_TraceWork"
  ]
 },
 {
  "id": "TW7",
  "file": "TraceWork",
  "definition": "copy_path",
  "old": "TWork idle (N.of_nat n) 0.",
  "new": "TWork idle 1 0.",
  "claim": "a path is copied segment by segment",
  "targets": [
   "Props_TraceWork"
  ]
 },
 {
  "id": "TW8",
  "file": "TraceWork",
  "definition": "ktrace",
  "old": "| ResTy (TCompact t') => ktrace f path true t' bs",
  "new": "| ResTy (TCompact t') => let m := ktrace f path true t' bs in (fst m, tthen (snd m) (snd m))",
  "claim": "the inside of a compact is decoded once",
  "targets": [
   "Props_TraceWork"
  ]
 },
 {
  "id": "TW9",
  "file": "TraceWork",
  "definition": "kt_unnamed",
  "old": "with_outer (path ++ [SIndex idx]) (Unnamed vals) (fun v => Unnamed (vals ++ [v])) e),\n                      tthen (copy_path (length path)) (tthen (snd m) (report (length path) vals e)))",
  "new": "with_outer (path ++ [SIndex idx]) (Unnamed vals) (fun v => Unnamed [v]) e),\n                      tthen (copy_path (length path)) (tthen (snd m) (report (length path) vals e)))",
  "claim": "what was decoded before stays in the report",
  "targets": [
   "Props_TraceWork"
  ]
 },
 {
  "id": "TW10",
  "file": "TraceWork",
  "definition": "kt_unnamed",
  "old": "let k := kt_unnamed (S idx) (vals ++ [v]) ts' bs' in",
  "new": "let k := kt_unnamed (S idx) (v :: vals) ts' bs' in",
  "claim": "items stay in order",
  "targets": [
   "Props_TraceWork"
  ]
 },
 {
  "id": "VO1",
  "file": "Value",
  "definition": "prim_wf",
  "old": "(n <? 2 ^ 128)%N",
  "new": "(n <? 2 ^ 129)%N",
  "claim": "u128 has 128 bits",
  "targets": [
   "Props_Vocab"
  ]
 },
 {
  "id": "VO2",
  "file": "Value",
  "definition": "prim_wf",
  "old": "(n <? 2 ^ 128)%N",
  "new": "(n <? 3 ^ 128)%N",
  "claim": "u128 has 128 bits",
  "targets": [
   "Props_Vocab"
  ]
 },
 {
  "id": "VO3",
  "file": "Chars",
  "definition": "is_whitespace",
  "old": "(c =? 32) || (c =? 0x85)",
  "new": "(c =? 32) && (c =? 0x85)",
  "claim": "space is white space",
  "targets": [
   "Props_Vocab"
  ]
 },
 {
  "id": "VO4",
  "file": "Chars",
  "definition": "is_ascii_alpha",
  "old": "(c <=? 90)",
  "new": "(c <? 90)",
  "claim": "Z is a letter",
  "targets": [
   "Props_Vocab"
  ]
 },
 {
  "id": "VO5",
  "file": "Chars",
  "definition": "c_lt",
  "old": "c_bslash : char := 92",
  "new": "c_bslash : char := 93",
  "claim": "backslash is U+005C",
  "targets": [
   "Props_Vocab"
  ]
 },
 {
  "id": "VO6",
  "file": "Chars",
  "definition": "is_digit",
  "old": "(c <=? 57)",
  "new": "(c <? 57)",
  "claim": "9 is a digit",
  "targets": [
   "Props_Vocab"
  ]
 }
]