"""Append the results of the automatic mutation run (automut.py) to LOG.jsonl."""
import json
N={
 ('Serde','doc_size'):"fuel bound only: more fuel never changes a result",
 ('Base58','b58_alphabet'):"only letters and digits reach the decoder: the extra character is never seen (for exchanged characters see X29)",
 ('Base58','b58_char'):"default of a list access that is always in range: equivalent",
 ('ByteParsers','slice'):"this is Rust's slicing, not the program; the claim (no panic) only gets easier",
 ('ByteParsers','is_char_boundary'):"i <= 0 is i = 0: equivalent",
 ('SerdeAlloc','offer'):"size hints and widths nobody consults: equivalent",
 ('SerdeAlloc','read_bool'):"only the kind of error changes, no claim about it",
 ('SerdeAlloc','read_bools'):"only the kind of error changes, no claim about it",
 ('SerdeTexts','variant_de_t'):"the last arm gives the same result: equivalent",
 ('Serde','src_size'):"fuel bound only: more fuel never changes a result",
 ('Serde','doc_de'):"strict flag of a sequence whose visitor reads everything: equivalent",
 ('Serde','composite_de'):"strict flag of a sequence of exactly the elements asked for: equivalent",
 ('Serde','prim_de'):"strict flag of a one-element sequence that is always read: equivalent",
 ('Fmt','hex_loop'):"unreachable arm: equivalent",
 ('Fmt','u4_to_hex'):"unreachable arm: equivalent",
 ('Ss58','parse_ss58_bytes'):"the next check already rejects the empty string: equivalent",
}
N4={('ParseWork','w_parse_bool'):'the counters are added: commutative, equivalent',('Equality','prim_eq'):'equality of bytes, characters, texts and numbers is symmetric: equivalent',('Equality','vdef_eq'):'equality of bits is symmetric: equivalent',
 ('ByteParsers','u8_add'):"this is Rust's addition, not the program; the claim (no panic) only gets easier",('FmtCustom','same_kind'):'a relation used in lemmas only, not the program',('FmtCustom','req'):'a relation used in lemmas only, not the program',
 ('FmtCustom','decline_all'):'the pattern then binds the option: equivalent',('SerdeContent','at_end'):'the pattern then binds the option: equivalent',('Panics','pop'):'of a list of length one: equivalent',
 ('Base58','leading'):'x and y are equal there: equivalent',('Cursor','decode_composite_as_fields'):'after a successful visit nothing is left to skip, the iterator is unchanged: equivalent',
 ('ParseState','mone_of'):'an alternative that declines has not called a custom parser: equivalent for the alternatives of the program'}
rs=[json.loads(l) for l in open('/tmp/am/out2.jsonl')]+[dict(json.loads(l),run=3) for l in open('/tmp/am/out3.jsonl')]+[dict(json.loads(l),run=4) for l in open('/tmp/am/out4.jsonl')]
out=[]
for r in rs:
    r['file']=r['file'].replace('.v','')
    if r['res']=='STILLBORN': continue
    key=(r['file'],r['def']); note=None; tight=[]
    if r['res']=='SURVIVED':
        if r.get('run') in (3,4) and key==('SerdeContent','de_adjacently_tagged'): note='values never show strict sequences with a readable tag, and no claim is about the kind of error: equivalent for the claims'
        elif key==('Encode','encode_number'): tight=['C90']; note='survived; the statement of C90 was completed'
        elif key==('SerdeContent','de_adjacently_tagged'): tight=['C71_adjacently_tagged','C71_adjacently_tagged_unnamed']; note='survived; complete rules added (and the definition itself completed)'
        elif key==('SerdeContent','de_internally_tagged'): note='only the kind of error changes, no claim about it'
        elif key==('Serde','variant_de'): tight=['C89_as_content']; note='strict flag or arm falling through to the same result: equivalent; the HNewtypeStruct arm: C89_as_content added'
        elif r['file']=='ParseWork': note='the bound of C78 has slack: the claim stays true of the edited counter'
        elif r.get('run')==4 and key in N4: note=N4[key]
        else: note=N.get(key,'equivalent')
    elif r['res']=='SLOW': note='the proofs did not finish within the time limit (they loop on the edited definition), counted as not passing'
    e=dict(attempt=(f"auto{r['run']}-" if r.get('run') else "auto-")+str(r['i']),definition=f"theories/{r['file']}.v: {r['def']} (line {r['line']})",edit=[{'from':r['old'],'to':r['new']}],claim_broken='(generated edit: '+str(r['op'])+')',
      theorems_failed=[], first_lemmas_failed=[r['lemma']] if r.get('lemma') else [], result=r['res'].lower(), theorems_tightened=tight)
    if note: e['note']=note
    out.append(e)
open('/verif/seeded/LOG.jsonl','a').write(''.join(json.dumps(e,ensure_ascii=False)+'\n' for e in out))
print(len(out))
