import json
M=[]
def m(i,f,d,o,n,c,t): M.append(dict(id=i,file=f,definition=d,old=o,new=n,claim=c,targets=t.split()))
S="Props_Shared"; F="Props_FmtTalk"
m("SH1","MapShared","in_turn","let (b, g1) := h a g in let (r, g2) := go l' g1 in (b :: r, g2)","let (r, g1) := go l' g in let (b, g2) := h a g1 in (b :: r, g2)","children are mapped first to last (C01)",S)
m("SH2","MapShared","in_turn","let (r, g2) := go l' g1 in (b :: r, g2)","let (r, g2) := go l' g in (b :: r, g2)","what is shared is handed on (C01)",S)
m("SH3","MapShared","map_shared","(fun c g => map_shared f s1 c g) d g1 in","(fun c g => map_shared f s c g) d g1 in","children get the closure as it is after the call for their parent (C01)",S)
m("SH4","MapShared","map_shared","d g1 in (Val d' u, g2)","d g in (Val d' u, g2)","the parent's call comes before those of the children (C01)",S)
m("SH5","MapShared","map_shared","d g1 in (Val d' u, g2)","d g1 in (Val d' u, g1)","shared effects of the children stay (C01)",S)
m("SH6","MapShared","composite_in_turn","((fst kv, b), g')) l g in (Named r, g')","((fst kv, b), g')) (rev l) g in (Named r, g')","field order (C01)",S)
m("FT1","Fmt","fmt_value","             | (None, f') => fmt_valuedef fmt_value d f'\n","             | (None, _) => fmt_valuedef fmt_value d f\n","what a declining formatter wrote stays (C98)",F)
m("FT2","Fmt","run_formatters","| (None, w) => run_formatters fs' v (FS w (fstyle f))","| (None, w) => run_formatters fs' v f","what a declining formatter wrote stays (C98)",F)
m("FT3","Fmt","run_formatters","| (Some ok, w) => (Some ok, FS w (fstyle f))","| (Some ok, w) => (Some true, FS w (fstyle f))","errors of formatters are reported (C98)",F)
m("FT4","Fmt","fmt_context","(FS w (fstyle f), ok)) (write_str (s2l \"> \")))","(FS w (fstyle f), true)) (write_str (s2l \"> \")))","errors of the context printer are reported (C98)",F)
m("FT5","Fmt","fmt_value","        andthen (fmt_context c)\n          (fun f =>\n             match run_formatters (custom_formatters cfg) v f with\n             | (Some ok, f') => (f', ok)\n             | (None, f') => fmt_valuedef fmt_value d f'\n             end)","        (fun f =>\n             match run_formatters (custom_formatters cfg) v f with\n             | (Some ok, f') => (f', ok)\n             | (None, f') => andthen (fmt_context c) (fmt_valuedef fmt_value d) f'\n             end)","the context comes before the custom formatters (C98)",F)
m("FT6","Fmt","andthen","let (f', ok) := a f in if ok then b f' else (f', false)","let (f', ok) := a f in let (f2, ok2) := b f' in (f2, ok && ok2)","nothing is written after a failure (C98)",F)
m("FT7","Fmt","unindent_step","Pretty n => Pretty (Nat.pred n)","Pretty n => Pretty n","the indent is taken back (C98)",F)
m("FT8","Fmt","run_formatters","| g :: fs' =>\n        match g v (writer f) with","| g :: fs' =>\n        match (let (_, w) := g v (writer f) in g v w) with","each formatter is asked once (C98)",F)
m("FT9","Fmt","fmt_composite","(andthen (fmt_items fv l)","(andthen (fmt_items fv (rev l))","items in order (C98)",F)
m("FT10","Fmt","fmt_field","andthen (fmt_name (fst kv)) (andthen (write_char c_colon) (andthen space (fv (snd kv))))","andthen (write_char c_colon) (andthen space (andthen (fv (snd kv)) (fmt_name (fst kv))))","name before value (C98)",F)
json.dump(M,open('/tmp/gen/mu17.json','w'))
T="/verif/rocq/theories/"
for x in M:
    s=open(T+x['file']+'.v').read()
    if s.count(x['old'])!=1: print(x['id'],s.count(x['old']))
