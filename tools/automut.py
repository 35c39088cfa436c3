import re,random,os,subprocess,sys,json,shutil,time
from concurrent.futures import ThreadPoolExecutor
BASE='/tmp/am/base'
FILES={f:10**6 for f in 'Value.v Chars.v Parse.v Fmt.v FmtParts.v Hex.v Ss58.v Scale.v Registry.v Decode.v Trace.v Encode.v EncodeLoc.v Serde.v SerdeCalls.v SerdeContent.v Macro.v Messages.v Alloc.v ForeignTargets.v SerdeUni.v EncodeCost.v ParseWork.v DecodeWork.v'.split()}
def strip_comments_mask(s):
    mask=[True]*len(s); d=0; i=0
    while i<len(s):
        if s.startswith('(*',i): d+=1; mask[i]=mask[i+1]=False; i+=2; continue
        if s.startswith('*)',i) and d: d-=1; mask[i]=mask[i+1]=False; i+=2; continue
        if d: mask[i]=False
        i+=1
    return mask
def sites(f):
    s=open(f'{BASE}/theories/{f}').read(); mask=strip_comments_mask(s)
    # definition regions
    regs=[]
    for m in re.finditer(r'^\s*(Definition|Fixpoint|with)\s+(\w+)',s,re.M):
        if not mask[m.start(1)]: continue
        e=re.search(r'\.\s*\n',s[m.end():]); 
        if not e: continue
        regs.append((m.group(2),m.start(1),m.end()+e.start()))
    out=[]
    def add(name,a,b,new,op):
        out.append((f,name,a,b,s[a:b],new,op))
    for name,a,b in regs:
        body=s.index(':=',a) if ':=' in s[a:b] else a
        for m in re.finditer(r'(<=\?|=\?|<\?)',s[body:b]):
            p=body+m.start(); o=m.group(1)
            if not mask[p]: continue
            new={'=?':'<=?','<=?':'<?','<?':'<=?'}[o]
            if o=='=?' and s[p-1]=='<': continue
            add(name,p,p+len(o),new,'cmp')
        for m in re.finditer(r' (&&|\|\|) ',s[body:b]):
            p=body+m.start(1)
            if mask[p]: add(name,p,p+2,{'&&':'||','||':'&&'}[m.group(1)],'bool')
        for m in re.finditer(r'\b(true|false)\b',s[body:b]):
            p=body+m.start()
            if mask[p]: add(name,p,p+len(m.group()),{'true':'false','false':'true'}[m.group()],'const')
        for m in re.finditer(r'(?<![\w.])(\d+)(?![\w.])',s[body:b]):
            p=body+m.start()
            if mask[p]: add(name,p,p+len(m.group()),str(int(m.group())+1),'num')
        for m in re.finditer(r'\bif ([^\n]+?) then\b',s[body:b]):
            p=body+m.start(1)
            if mask[p]: add(name,p,body+m.end(1),'negb (%s)'%m.group(1),'if')
        for m in re.finditer(r'^\s*\|[^\n]*=>[^\n]*\n',s[body:b],re.M):
            p=body+m.start()
            if mask[p] and '_ =>' not in m.group(): add(name,p,body+m.end(),'','arm')
        for m in re.finditer(r'"([^"\n]+)"',s[body:b]):
            p=body+m.start(1)
            if mask[p]: add(name,p,body+m.end(1),m.group(1)+'_','str')
        for m in re.finditer(r'\b(X[A-Z][a-z]\w+|K[A-Z]\w+|E[A-Z][a-z]\w+)\b',s[body:b]):
            pass
        for m in re.finditer(r'(\w+) \+\+ (\w+)(?=[\s)])',s[body:b]):
            p=body+m.start()
            if mask[p]: add(name,p,body+m.end(),f'{m.group(2)} ++ {m.group(1)}','swap'); add(name,p,body+m.end(),m.group(1),'dropapp')
        for m in re.finditer(r'\bS (\w+)\b',s[body:b]):
            pass
    return out
def pick(seed):
    random.seed(seed); ms=[]
    for f,n in FILES.items():
        st=sites(f); random.shuffle(st)
        # spread over definitions
        byd={}
        for x in st: byd.setdefault(x[1],[]).append(x)
        order=list(byd); random.shuffle(order); k=0
        while k<n and any(byd[d] for d in order):
            for d in order:
                if byd[d] and k<n: ms.append(byd[d].pop()); k+=1
    random.shuffle(ms)
    return ms
def sync(w):
    os.makedirs(w,exist_ok=True)
    b=BASE
    for dp,dn,fn in os.walk(b):
        rel=os.path.relpath(dp,b); os.makedirs(os.path.join(w,rel),exist_ok=True)
        for x in fn:
            p=os.path.join(dp,x); q=os.path.join(w,rel,x); st=os.stat(p)
            try:
                t=os.stat(q)
                if t.st_size==st.st_size and t.st_mtime_ns==st.st_mtime_ns: continue
            except FileNotFoundError: pass
            shutil.copy2(p,q)
def run(i,m,w):
    f,name,a,b,old,new,op=m
    sync(w)
    s=open(f'{w}/theories/{f}').read(); assert s[a:b]==old
    open(f'{w}/theories/{f}','w').write(s[:a]+new+s[b:])
    t0=time.time()
    try:
        p=subprocess.run(['timeout','2400','make','-j2','TIMER=timeout 200'],cwd=w,capture_output=True,text=True)
        o=p.stdout+p.stderr
    except Exception as e: o=str(e); p=None
    r={'i':i,'file':f,'def':name,'op':op,'line':s[:a].count('\n')+1,'old':old,'new':new,'ctx':s[max(0,a-60):b+40],'t':round(time.time()-t0)}
    if p and p.returncode==0: r['res']='SURVIVED'
    else:
        mm=re.search(r'File "\./theories/(\w+)\.v", line (\d+)',o)
        if mm:
            ff=mm.group(1)+'.v'; ln=int(mm.group(2))
            r['failfile']=ff
            r['res']='STILLBORN' if ff==f and not within_proof(w,ff,ln) else 'KILLED'
            txt=open(f'{w}/theories/{ff}').read().split('\n')[:ln]
            for l in reversed(txt):
                k=re.match(r'\s*(?:Theorem|Lemma|Example|Definition|Fixpoint|Corollary)\s+(\w+)',l)
                if k: r['lemma']=k.group(1); break
        else: r['res']='TIMEOUT' if p and p.returncode==124 else ('SLOW' if 'Error 124' in o else 'UNKNOWN'); r['tail']=o[-300:]
    return r
def within_proof(w,ff,ln):
    txt=open(f'{w}/theories/{ff}').read().split('\n')[:ln]
    for l in reversed(txt):
        if re.match(r'\s*(Theorem|Lemma|Example|Corollary)\s',l): return True
        if re.match(r'\s*(Definition|Fixpoint|with|Inductive|Record)\s',l): return False
    return False
if __name__=='__main__':
    seed=int(sys.argv[1]); jobs=int(sys.argv[2]); out=sys.argv[3]; lim=int(sys.argv[4]) if len(sys.argv)>4 else 10**9
    ms=pick(seed)[:lim]; print(len(ms),flush=True)
    done=set()
    if os.path.exists(out):
        for l in open(out): done.add(json.loads(l)['i'])
    import queue,threading
    q=queue.Queue()
    for i,m in enumerate(ms):
        if i not in done: q.put((i,m))
    lock=threading.Lock()
    def worker(k):
        while True:
            try: i,m=q.get_nowait()
            except queue.Empty: return
            r=run(i,m,f'/tmp/am/w{k}')
            with lock:
                open(out,'a').write(json.dumps(r)+'\n')
                if r['res'] in('SURVIVED','TIMEOUT','UNKNOWN'): print(r,flush=True)
    ts=[threading.Thread(target=worker,args=(k,)) for k in range(jobs)]
    [t.start() for t in ts]; [t.join() for t in ts]
    print('end')
