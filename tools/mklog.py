"""Write /verif/seeded/LOG.jsonl from the mutation lists (mu*.json), their results (mu*.out) and tightened.json."""
import json,os
T=json.load(open('/tmp/gen/tightened.json')) if os.path.exists('/tmp/gen/tightened.json') else {}
out=[];n0=0
for k in range(1,40):
    j,o=f'/tmp/gen/mu{k}.json',f'/tmp/gen/mu{k}.out'
    if not(os.path.exists(j) and os.path.exists(o)): continue
    M={x['id']:x for x in json.load(open(j))}
    for l in open(o):
        d=json.loads(l); x=M[d['id']]
        if 'error' in d and 'failed' not in d:
            r=dict(failed=[],broken=d.get('broken',[]),err='the edited model no longer type-checks a statement or definition: '+d['error'][:160])
        else: r=dict(failed=d['failed'],broken=d['broken'],err=None)
        edit=x.get('edits') or [[x['old'],x['new']]]
        e=dict(attempt=d['id'],definition=f"theories/{x['file']}.v: {x['definition']}",edit=[{'from':a,'to':b} for a,b in edit],claim_broken=x['claim'],
               rebuilt_targets=x['targets'],theorems_failed=r['failed'],lemmas_failed=len(r['broken']),first_lemmas_failed=r['broken'][:6],theorems_tightened=T.get(d['id'],{}).get('tightened',[]))
        if r['err']: e['error']=r['err']
        note=T.get(d['id'],{}).get('note')
        if note: e['note']=note
        if not r['failed'] and not r['err'] and not note: print('SURVIVOR',d['id'],x['claim'])
        out.append(e)
os.makedirs('/verif/seeded',exist_ok=True)
open('/verif/seeded/LOG.jsonl','w').write(''.join(json.dumps(e,ensure_ascii=False)+'\n' for e in out))
print(len(out))
