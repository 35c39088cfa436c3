[
 {
  "id": "MS1",
  "file": "ParseState",
  "definition": "mrun",
  "old": "| (m', (None, cur)) => mrun ps' m' cur",
  "new": "| (m', (None, cur)) => mrun ps' m cur",
  "claim": "what a declining parser remembers stays",
  "targets": [
   "Props_Memory"
  ]
 },
 {
  "id": "MS2",
  "file": "ParseState",
  "definition": "mone_of",
  "old": "| (m', (Err None, _)) => mone_of alts' m' t",
  "new": "| (m', (Err None, _)) => mone_of alts' m t",
  "claim": "what was remembered while an alternative was tried stays (no alternative is given up after asking: equivalent)",
  "targets": [
   "Props_Memory"
  ]
 },
 {
  "id": "MS3",
  "file": "ParseState",
  "definition": "mbuiltin",
  "old": "momap (fun c => without_context (DComposite c)) (munnamed fuel);\n",
  "new": "momap (fun c => without_context (DComposite c)) (munnamed fuel); momap (fun c => without_context (DComposite c)) (munnamed fuel);\n",
  "claim": "an alternative is not tried twice (the first answers: equivalent)",
  "targets": [
   "Props_Memory"
  ]
 },
 {
  "id": "MS4",
  "file": "ParseState",
  "definition": "msep_rest",
  "old": "| (m', (Err e, _)) => (m', (Err e, t))\n          | (m', (Ok a, t2)) => msep_rest",
  "new": "| (m', (Err e, _)) => (m, (Err e, t))\n          | (m', (Ok a, t2)) => msep_rest",
  "claim": "memory is not rolled back on errors",
  "targets": [
   "Props_Memory"
  ]
 },
 {
  "id": "MS5",
  "file": "ParseState",
  "definition": "msep_rest",
  "old": "match item m t1 with",
  "new": "match item (fst (item m t1)) t1 with",
  "claim": "an item is asked for once",
  "targets": [
   "Props_Memory"
  ]
 },
 {
  "id": "MS6",
  "file": "ParseState",
  "definition": "msep_rest",
  "old": "if negb ok then (m, (Ok (rev acc), t))",
  "new": "if negb ok then (fst (item m t1), (Ok (rev acc), t))",
  "claim": "nothing is asked behind the last item",
  "targets": [
   "Props_Memory"
  ]
 },
 {
  "id": "MS7",
  "file": "ParseState",
  "definition": "mdelimited",
  "old": "if ok then (m, (Ok [], t3)) else\n      match msep_by",
  "new": "if false then (m, (Ok [], t3)) else\n      match msep_by",
  "claim": "an empty list asks nothing",
  "targets": [
   "Props_Memory"
  ]
 },
 {
  "id": "MS8",
  "file": "ParseState",
  "definition": "mvariant",
  "old": "match mone_of [mnamed fuel; munnamed fuel] m t2 with",
  "new": "match mone_of [munnamed fuel; mnamed fuel] m t2 with",
  "claim": "order of alternatives (exclusive: equivalent up to the proof)",
  "targets": [
   "Props_Memory"
  ]
 },
 {
  "id": "MS9",
  "file": "ParseState",
  "definition": "mparse_value",
  "old": "| (m', None) => mbuiltin (mparse_value ps k) k m' t",
  "new": "| (m', None) => mbuiltin (mparse_value ps k) k m t",
  "claim": "what was remembered when declining stays",
  "targets": [
   "Props_Memory"
  ]
 },
 {
  "id": "MS10",
  "file": "ParseState",
  "definition": "mparse_value",
  "old": "| (m', Some (Err e, _)) =>",
  "new": "| (m', Some (Err e, cur)) => mbuiltin (mparse_value ps k) k m' t\n        | (m', Some (Err e, _)) =>",
  "claim": "an error of a custom parser ends parsing",
  "targets": [
   "Props_Memory"
  ]
 },
 {
  "id": "MS11",
  "file": "ParseState",
  "definition": "mfield",
  "old": "match pv m t2 with",
  "new": "match pv (fst (pv m t)) t2 with",
  "claim": "no value is asked for at a field name",
  "targets": [
   "Props_Memory"
  ]
 }
]