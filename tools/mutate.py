#!/usr/bin/env python3
"""mutate.py <mutants.py>: for each mutant, edit the model in a scratch copy, rebuild; admit (in the
scratch copy only) each proof that fails, until everything builds; then list the claimed theorems
that rest on an admitted proof.  Prints, and with --log appends to seeded/LOG.jsonl."""
import json, os, re, shutil, subprocess, sys, time
SRC=os.environ.get('MUTSRC','/verif/rocq'); W=os.environ.get('MUTDIR','/tmp/mut/work')
HEAD=re.compile(r'^\s*(?:Global |Local |#\[[^\]]*\] )?(Lemma|Theorem|Corollary|Example|Fact|Remark|Definition|Fixpoint|Instance|Record|Inductive|Print|Let|Ltac|Notation|Add)\b\s*([A-Za-z0-9_\']*)')
def make(timeout=3000):
    return subprocess.run(['make','-j4','-k'],cwd=W,capture_output=True,text=True,timeout=timeout)
def fresh():
    if not os.path.exists(W): os.makedirs(W)
    shutil.rmtree(W,ignore_errors=True); subprocess.run(['cp','-a',SRC,W],check=True)
def admit(path,line):
    L=open(path).read().split('\n')
    i=line-1
    while i>=0 and not HEAD.match(L[i]): i-=1
    if i<0: return None,'no head'
    m=HEAD.match(L[i]); kind,name=m.group(1),m.group(2)
    if kind not in ('Lemma','Theorem','Corollary','Example','Fact','Remark'):
        return None,f'{kind} {name}: {L[i][:80]}'
    txt='\n'.join(L[i:])
    pm=re.search(r'(?<![A-Za-z_])Proof\.',txt)
    qm=re.search(r'(?<![A-Za-z_])(Qed|Defined)\.',txt)
    if not pm or not qm or pm.start()>qm.start(): return None,'no proof '+name
    new=txt[:pm.start()]+'Admitted.'+'\n'*txt[pm.start():qm.end()].count('\n')+txt[qm.end():]
    open(path,'w').write('\n'.join(L[:i])+('\n' if i else '')+new)
    return name,None
def tainted(failed,thms):
    # the dependency graph of the lemmas, from the .glob files (and, for tactics, from the text)
    import glob
    deps={}; lt={}; segs=[]
    for g in glob.glob(W+'/theories/*.glob'):
        mod=os.path.basename(g)[:-5]; cur=None
        if not os.path.exists(g[:-5]+'.v'): continue
        txt=open(g[:-5]+'.v',encoding='utf8').read()
        for l in open(g):
            w=l.split()
            if w[0] in ('prf','def','thm','ind','rec','inst','scheme','abbrev','not') and len(w)>=4 and ':' in w[1]:
                cur=mod+'.'+w[3]; deps.setdefault(cur,set())
            elif w[0][0]=='R' and cur and len(w)>=4 and w[1].startswith('Verif.'):
                deps[cur].add(w[1][6:]+'.'+w[3])
        for m in re.finditer(r'(?m)^\s*Ltac\s+([A-Za-z0-9_]+)',txt):
            e=txt.find('.\n',m.end()); lt[m.group(1)]=set(re.findall(r"[A-Za-z0-9_']+",txt[m.end():e]))
        for m in re.finditer(r"(?m)^\s*(?:Lemma|Theorem|Example|Corollary|Fact|Remark)\s+([A-Za-z0-9_']+)",txt):
            e=re.compile(r'(Qed|Defined|Admitted)\.').search(txt,m.end())
            segs.append((mod+'.'+m.group(1),set(re.findall(r"[A-Za-z0-9_']+",txt[m.end():e.start() if e else None]))))
    bad={f for f in failed}
    badshort=lambda: {b.split('.')[-1] for b in bad}
    ch=True
    while ch:
        ch=False; bs=badshort()
        bl={t for t,b in lt.items() if b&bs}
        while True:
            n={t for t,b in lt.items() if b&bl}-bl
            if not n: break
            bl|=n
        for n,d in deps.items():
            if n not in bad and d&bad: bad.add(n); ch=True
        for n,ws in segs:
            if n not in bad and ws&bl: bad.add(n); ch=True
    return [t for t in thms if t[6:] in bad]
def run(mu, thms, log):
    t0=time.time(); fresh()
    p=f"{W}/theories/{mu['file']}"; s=open(p).read()
    n=s.count(mu['old'])
    if n<1 or (n>1 and not mu.get('all')): print('!!',mu['id'],'matches',n); return
    s=s.replace(mu['old'],mu['new']); open(p,'w').write(s)
    failed=[]; note=None
    for it in range(80):
        r=make()
        errs=re.findall(r'File "\./([^"]+)", line (\d+), characters[^\n]*\n(Error[^\n]*(?:\n[^\n]*)?)',r.stdout+r.stderr)
        if r.returncode==0: break
        if not errs: note='make failed: '+(r.stderr[-300:]); break
        done=set(); bad=False
        for f,l,e in errs:
            if f in done: continue
            done.add(f); a,why=admit(f'{W}/{f}',int(l))
            if a is None: note=f'{f}:{l}: {why}: {e[:200]}'; bad=True
            else: failed.append(f'{os.path.basename(f)[:-2]}.{a}')
        if bad: break
    res=dict(id=mu['id'],definition=mu['def'],edit=mu['edit'],claims_broken=mu['claims'],admitted=failed)
    if note: res['note']=note
    else:
        fl=[t.split('.')[-1] for t in tainted(failed,thms)]
        res['failed']=fl
        cl=mu['claims']; st={}
        for c in CL:
            if c['property'] in cl: st[c['property']]=(sum(t in fl for t in c['theorems']),len(c['theorems']))
        res['per_claim']=st
        res['survivors']=[t for c in CL if c['property'] in cl for t in c['theorems'] if t not in fl]
    res['sec']=round(time.time()-t0)
    print(json.dumps(res),flush=True)
    open('/tmp/mut/results.jsonl','a').write(json.dumps(res)+'\n')
_man=os.path.join(os.environ.get('MUTSRC','/tmp/mut/src'),'MANIFEST.json')
CL=json.load(open(_man if os.path.exists(_man) else '/verif/MANIFEST.json'))['claims']
def main():
    muts=[]; ns={}
    exec(open(sys.argv[1]).read(),ns); muts=ns['M']
    only=set(sys.argv[2:])
    # qualified names of the claimed theorems
    where={}
    import glob
    for f in glob.glob(SRC+'/theories/*.v'):
        for m in re.findall(r'(?m)^\s*(?:Theorem|Lemma)\s+([A-Za-z0-9_\']+)',open(f).read()): where.setdefault(m,[]).append(os.path.basename(f)[:-2])
    thms=[]
    for c in CL:
        for t in c['theorems']:
                if t in where: thms.append('Verif.'+where[t][0]+'.'+t)
    done=set()
    if os.path.exists('/tmp/mut/results.jsonl'): done={json.loads(l)['id'] for l in open('/tmp/mut/results.jsonl')}
    for mu in muts:
        if only and mu['id'] not in only: continue
        if not only and mu['id'] in done: continue
        run(mu,thms,False)
main()
