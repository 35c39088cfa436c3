"""addp.py: helper: add(property args), note, design bullet, table row."""
import json,sys
def add(cid,title,st,q,why,anch,note,bullet,rows=()):
    s=open('/tmp/gen/props.py').read()
    if 'p("%s"'%cid not in s:
        s=s.replace("open('/verif/properties.jsonl'",'p(%r,%r,%r,%r,%r,%r)\n'%(cid,title,st,q,why,anch)+"open('/verif/properties.jsonl'")
        open('/tmp/gen/props.py','w').write(s)
    n=json.load(open('/tmp/gen/notes.json')); n[cid]={'note':note}; json.dump(n,open('/tmp/gen/notes.json','w'),indent=1)
    d=open('/verif/DESIGN.md').read()
    if '* %s ('%cid not in d:
        d=d.replace('No property of the list is left out as inexpressible.',bullet.rstrip()+'\n\nNo property of the list is left out as inexpressible.',1)
        d=d.replace('\n\n\nNo property','\n\nNo property').replace('\n\n* %s'%cid,'\n* %s'%cid)
        for after,row in rows:
            i=d.index(after); j=d.index('\n',i); d=d[:j+1]+row+'\n'+d[j+1:]
        open('/verif/DESIGN.md','w').write(d)
