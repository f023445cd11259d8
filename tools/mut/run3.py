import subprocess,re,os,sys,json,shutil,time
BASE='/tmp/mut/base3'; W='/tmp/mut/w%s'%os.environ.get('SLOT','0')
PRE=re.compile(r'^\s*(?:#\[[^\]]*\]\s*)?(?:Local |Global |Program )?(Lemma|Theorem|Corollary|Example|Remark|Fact|Instance|Proposition|Definition|Fixpoint|Goal)\s+([A-Za-z0-9_\']+)')
def sh(c,t=None):
    try:
        p=subprocess.run(c,shell=True,capture_output=True,text=True,timeout=t); return p.returncode,p.stdout+p.stderr
    except subprocess.TimeoutExpired as e: 
        return 124,(e.stdout or b'').decode()+(e.stderr or b'').decode()+'TIMEOUT'
def admit(f,line):
    L=open(f).read().split('\n'); i=line-1
    # find start: nearest preceding header with Proof before line
    s=i
    while s>=0 and not (PRE.match(L[s])): s-=1
    if s<0: return None
    m=PRE.match(L[s]); name=m.group(2)
    # find Proof.
    p=s
    while p<len(L) and not re.search(r'\bProof\b',L[p]): p+=1
    if p>i: return ('STATEMENT',name,L[i][:150])
    e=max(p,i)
    while e<len(L) and not re.search(r'\b(Qed|Defined|Admitted)\.',L[e]): e+=1
    if e>=len(L): return ('NOEND',name,'')
    if re.search(r'Admitted\.',L[e]) and e==p: return ('AGAIN',name,'')
    pre=L[p][:L[p].index('Proof')]
    for k in range(p,e+1): L[k]=''
    L[p]=pre+'Proof. Admitted.'
    open(f,'w').write('\n'.join(L)); return ('OK',name,'')
def propthms(d):
    r={}
    for f in sorted(os.listdir(d)):
        if f.startswith('Prop') and f.endswith('.v'):
            r[f[:-2]]=re.findall(r'^\s*(?:Theorem|Corollary)\s+(C\d\d_\w+)',open(d+'/'+f).read(),re.M)
    return r
def run(m):
    t0=time.time()
    sh(f'rm -rf {W}; cp -a {BASE} {W}')
    for (f,old,new) in m['edits']:
        p=f'{W}/theories/{f}.v'; s=open(p).read()
        c=s.count(old)
        if c==0: return dict(error=f'pattern not found in {f}: {old}')
        if c>1 and not m.get('all'): return dict(error=f'pattern {c}x in {f}: {old}')
        open(p,'w').write(s.replace(old,new))
    failed=[];broken=[];
    PF=propthms(W+'/theories')
    for it in range(60):
        rc,out=sh(f'cd {W} && timeout 1500 make -k -j4 2>&1',1600)
        errs=re.findall(r'File "\./theories/(\w+)\.v", line (\d+), characters [^\n]*\n(?:Error|Warning)?',out)
        errs=[(a,int(b)) for a,b in re.findall(r'File "\./theories/(\w+)\.v", line (\d+), characters [\d-]+:\s*\nError',out)]
        if not errs: break
        stop=False; seen=set()
        for f,l in errs:
            if f in seen: continue
            seen.add(f)
            if f in [b[0] for b in broken]: continue
            r=admit(f'{W}/theories/{f}.v',l)
            if r and r[0]=='OK': failed.append((f,r[1]))
            else: broken.append((f,l,r))
        if all(f in [b[0] for b in broken] for f,_ in errs): break
        if time.time()-t0>2400: broken.append(('TIME',0,None)); break
    # which property theorems depend on admitted lemmas
    names={n for _,n in failed}
    deps=[]; nob=[]
    for f,ts in PF.items():
        if not os.path.exists(f'{W}/theories/{f}.vo') or (os.path.getmtime(f'{W}/theories/{f}.vo')<os.path.getmtime(f'{BASE}/theories/{f}.vo')): 
            nob.append(f); continue
        if os.path.getmtime(f'{W}/theories/{f}.vo')==os.path.getmtime(f'{BASE}/theories/{f}.vo') : 
            if (f in [b[0] for b in broken]): nob.append(f)
            continue
        t=f'{W}/q_{f}.v'
        open(t,'w').write(f'From Verif Require Import {f}.\n'+''.join(f'Print Assumptions Verif.{f}.{x}.\n' for x in ts))
        rc,o=sh(f'cd {W} && coqc -Q theories Verif q_{f}.v',900)
        # split blocks
        blocks=re.split(r'^(?=Axioms:|Closed under)',o,flags=re.M)[1:]
        for x,b in zip(ts,blocks):
            if any(re.search(r'(^|[\s.])'+re.escape(n)+r'\s*:',b) for n in names) : deps.append(x)
    direct=[n for _,n in failed if re.match(r'C\d\d_',n)]
    return dict(lemmas=failed,theorems=sorted(set(deps)|set(direct)),broken=broken,notbuilt=nob,secs=int(time.time()-t0))
if __name__=='__main__':
    ms={}
    exec(open(sys.argv[1]).read())
    sel=sys.argv[2:]
    for m in muts:
        if sel and m['id'] not in sel: continue
        r=run(m); m2=dict(m); m2['res']=r
        print(m['id'],m.get('def'),'|',r.get('error') or '', 'THM',r.get('theorems'),'LEM',[n for _,n in r.get('lemmas',[])],'BROKEN',r.get('broken'),'NB',r.get('notbuilt'),r.get('secs'),flush=True)
        open('/tmp/mut/results.jsonl','a').write(json.dumps(m2)+'\n')
