import json,re,glob
thms={}
for f in glob.glob('/verif/rocq/theories/Props_*.v'):
    for m in re.finditer(r'^Theorem (C\d+)_(\w+)',open(f).read(),re.M):
        thms.setdefault(m.group(1),[]).append(m.group(1)+'_'+m.group(2))
notes=json.load(open('/tmp/gen/notes.json'))
claims=[]
for l in open('/verif/properties.jsonl'):
    d=json.loads(l);i=d['id']
    t=thms.get(i,[])
    n=notes.get(i,{})
    st=n.get('status','proved' if t else 'partial')
    if not t: continue
    claims.append({"property":i,"status":st,"theorems":t,"note":n.get('note','')})
json.dump({"claims":claims},open('/verif/MANIFEST.json','w'),indent=1)
print(sum(1 for c in claims if c['theorems']),len(claims))
