#!/usr/bin/env python3
"""Apply an edit to the model in a scratch copy, rebuild, and report which property theorems no longer hold.
A proof that fails is replaced by Admitted in the scratch copy and the build goes on; a property theorem has failed if it was
itself replaced or if Print Assumptions shows that it rests on a replaced lemma."""
import sys,os,re,json,subprocess,shutil,time
SRC='/verif/rocq/theories'
def deps(d):
    order=[l.strip()[len('theories/'):-2] for l in open('/verif/rocq/_CoqProject') if l.startswith('theories/')]
    dep={}
    for m in order:
        t=open(f'{d}/{m}.v').read()
        ds=set()
        for x in re.finditer(r'From Verif Require (?:Import|Export) ([^.]*)\.',t): ds|=set(x.group(1).split())
        dep[m]=ds
    return order,dep
def closure(dep,ms):
    out=set();st=list(ms)
    while st:
        m=st.pop()
        if m in out: continue
        out.add(m);st+=list(dep[m])
    return out
ITEM=re.compile(r'^\s*(?:Local |Global |#\[[^\]]*\] *)?(Lemma|Theorem|Example|Corollary|Fact|Remark|Definition|Fixpoint|Instance|Ltac|Inductive|Scheme|Record)\s+([\w\']+)',re.M)
def repair(path,off):
    t=open(path).read()
    best=None
    for m in ITEM.finditer(t):
        if m.start()<=off: best=m
        else: break
    if best is None: return None,'no item'
    kind,name=best.group(1),best.group(2)
    nxt=[m.start() for m in ITEM.finditer(t) if m.start()>best.start()]
    end=nxt[0] if nxt else len(t)
    q=re.compile(r'\bProof(?: using[^.]*)?\.').search(t,best.start(),end)
    e=re.compile(r'\b(Qed|Defined)\.').search(t,best.start(),len(t))
    if not q or not e or q.start()>off and kind in('Definition','Fixpoint'): return name,'unrepairable: %s %s'%(kind,t[off:off+80])
    if q.start()>off: return name,'statement error: %s'%t[off:off+80]
    t=t[:q.start()]+'Proof. Admitted.'+t[e.end():]
    open(path,'w').write(t)
    return name,None
def run(mu,slot):
    d=f'/tmp/mut5/{slot}'
    shutil.rmtree(d,ignore_errors=True)
    shutil.copytree(SRC,d)
    f=mu['file']
    p=f'{d}/{f}.v'
    edits=mu.get('edits') or [[mu['old'],mu['new']]]
    t=open(p).read()
    for o,n in edits:
        if t.count(o)!=1: return {'id':mu['id'],'error':'pattern count %d: %s'%(t.count(o),o)}
        t=t.replace(o,n)
    open(p,'w').write(t)
    order,dep=deps(d)
    targets=mu['targets']
    need=closure(dep,targets)
    todo=[m for m in order if m in need and f in closure(dep,[m])]
    broken=[];log=[];failed=[]
    t0=time.time()
    for m in todo:
        path=f'{d}/{m}.v'
        for attempt in range(60):
            try:
                r=subprocess.run(['timeout','900','coqc','-time','-Q',d,'Verif',path],capture_output=True,text=True)
            except Exception as ex:
                return {'id':mu['id'],'error':str(ex)}
            if r.returncode==0: break
            if r.returncode==124 or 'File "' not in r.stderr:
                cs=re.findall(r'^Chars (\d+) - (\d+)',r.stdout,re.M)
                boff=int(cs[-1][1])+2 if cs else 0
            else:
                mm=re.search(r'File "[^"]*", line (\d+), characters (\d+)-(\d+)',r.stderr)
                lines=open(path,'rb').read().split(b'\n')
                boff=sum(len(x)+1 for x in lines[:int(mm.group(1))-1])+int(mm.group(2))
            raw=open(path,'rb').read()
            off=len(raw[:boff].decode('utf8','ignore'))
            name,err=repair(path,off)
            if err: return {'id':mu['id'],'error':f'{m}: {name}: {err}: {r.stderr[-300:]}','broken':broken}
            broken.append(f'{m}.{name}')
        else:
            return {'id':mu['id'],'error':'too many repairs in '+m,'broken':broken}
        if m in targets:
            out=r.stdout
            # Print Assumptions blocks in order of the theorems
            src=open(path).read()
            names=re.findall(r'^Print Assumptions (\w+)\.',src,re.M)
            blocks=[]
            cur=None
            for line in out.split('\n'):
                if line.startswith('Chars '):
                    if 'Print~Assumptions' in line or '[Print' in line:
                        pass
                    continue
                if line.startswith('Closed under'): blocks.append('')
                elif line.startswith('Axioms:'): blocks.append('A')
            if len(blocks)!=len(names): log.append(f'{m}: {len(blocks)} blocks {len(names)} names')
            failed+=[n for n,b in zip(names,blocks) if b]
            ths=re.findall(r'^Theorem (\w+)',src,re.M)
    return {'id':mu['id'],'broken':broken,'failed':failed,'log':log,'secs':int(time.time()-t0),'n':len(todo)}
if __name__=='__main__':
    from concurrent.futures import ThreadPoolExecutor
    mus=json.load(open(sys.argv[1])); jobs=int(sys.argv[2]); outp=sys.argv[3]
    done=set()
    if os.path.exists(outp): done={json.loads(l)['id'] for l in open(outp)}
    mus=[m for m in mus if m['id'] not in done]
    import threading,queue
    slots=queue.Queue()
    for i in range(jobs): slots.put(i)
    lock=threading.Lock()
    def go(mu):
        s=slots.get()
        try: r=run(mu,s)
        except Exception as ex: r={'id':mu['id'],'error':repr(ex)}
        finally: slots.put(s)
        with lock:
            open(outp,'a').write(json.dumps(r)+'\n'); print(r['id'],r.get('error') or len(r['failed']),flush=True)
    with ThreadPoolExecutor(jobs) as ex: list(ex.map(go,mus))
