from parse import *
from fractions import Fraction as F
from math import factorial
import re
# value: dict {(sc,k): poly} : sqrt(c)^sc in {0,1}, s^k ; poly list F ; keep c global per function
def padd(a,b):
    n=max(len(a),len(b)); return [ (a[i] if i<len(a) else 0)+(b[i] if i<len(b) else 0) for i in range(n)]
def pmul(a,b):
    r=[F(0)]*(len(a)+len(b)-1) if a and b else []
    for i,x in enumerate(a):
        for j,y in enumerate(b): r[i+j]+=x*y
    return r
def norm(v):
    r={}
    for k,p in v.items():
        p=list(p)
        while p and p[-1]==0:p.pop()
        if p:r[k]=p
    return r
def num(t):
    m=re.match(r'0\.(\d+)e(\d+)$',t)
    if m: return F(int(m.group(1)))*F(10)**(int(m.group(2))-len(m.group(1)))
    return F(int(t))
class Ev:
    def __init__(s): s.c=None
    def ev(s,e,env):
        o=e[0]
        if o=='num': return norm({(0,0):[num(e[1])]})
        if o=='x': return {(0,0):[F(0),F(1)]}
        if o=='v': return env[e[1]]
        if o=='neg': return {k:[-a for a in p] for k,p in s.ev(e[1],env).items()}
        if o in('add','sub'):
            a=s.ev(e[1],env);b=s.ev(e[2],env);r=dict(a)
            for k,p in b.items():
                q=p if o=='add' else [-z for z in p]
                r[k]=padd(r.get(k,[]),q)
            return norm(r)
        if o=='mul':
            return s.mul(s.ev(e[1],env),s.ev(e[2],env))
        if o=='div':
            a=s.ev(e[1],env);b=s.ev(e[2],env)
            (k,p),=b.items(); 
            assert len(p)==1 and k[0]==0,(k,p)
            return {(q[0],q[1]-k[1]):[z/p[0] for z in pp] for q,pp in a.items()}
        if o=='sqrt':
            a=s.ev(e[1],env); (k,p),=a.items(); assert k==(0,0)
            if len(p)==1:
                assert s.c is None or s.c==p[0]; s.c=p[0]; return {(1,0):[F(1)]}
            assert p==[1,0,-1]; return {(0,1):[F(1)]}
        if o=='pow':
            a=s.ev(e[1],env); k=num(e[2][1]); assert k==2; return s.mul(a,a)
    def mul(s,a,b):
        r={}
        for (c1,k1),p1 in a.items():
            for (c2,k2),p2 in b.items():
                p=pmul(p1,p2); c=c1+c2;k=k1+k2
                if c==2: p=[z*s.c for z in p];c=0
                r[(c,k)]=padd(r.get((c,k),[]),p)
        return norm(r)
def canon(v):
    # reduce s^k to minimal k parity: bring all to common base with s^kmin, multiply by (1-x^2)
    ks={}
    for (c,k),p in v.items(): ks.setdefault((c,k%2),[]).append((k,p))
    r={}
    for (c,par),l in ks.items():
        km=min(k for k,_ in l); acc=[]
        for k,p in l:
            for _ in range((k-km)//2): p=pmul(p,[F(1),F(0),F(-1)])
            acc=padd(acc,p)
        # pull out factors? normalise to km=par (nonneg) or negative
        while km>par: acc=pmul(acc,[F(1),F(0),F(-1)]);km-=2
        while km<par:
            # try divide
            q=divpoly(acc)
            if q is None: break
            acc=q;km+=2
        r[(c,km)]=acc
    return norm(r)
def divpoly(a):
    a=a[:]; 
    while a and a[-1]==0:a.pop()
    q=[F(0)]*max(0,len(a)-2)
    for i in range(len(a)-1,1,-1):
        q[i-2]=-a[i]; 
        a[i-2]+= a[i]; a[i]=F(0)
    # (1-x^2)*q = a  => coefficient of x^i: -q[i-2]+q[i]
    if any(z!=0 for z in a): return None
    return q
def leg(n):
    a,b=[F(1)],[F(0),F(1)]
    if n==0:return a
    for k in range(1,n):
        c=padd([z*F(2*k+1,k+1) for z in [F(0)]+b],[-z*F(k,k+1) for z in a]);a,b=b,c
    return b
def der(p): return [i*p[i] for i in range(1,len(p))]
bad=0
for (n,m,d),(prog,ret,l,_) in sorted(funs.items()):
    E=Ev();env={}
    for k,e in prog: env[k]=E.ev(e,env)
    v=canon(E.ev(ret,env))
    q=leg(n)
    for _ in range(m): q=der(q)
    q=[z*(-1)**m for z in q]
    if not d: ref={(0,m):q}
    else:
        ref={(0,m):der(q)}
        if m>0: ref[(0,m-2)]=pmul(q,[F(0),F(-m)])
    N=F(factorial(n-m),factorial(n+m))
    ref=canon(ref)
    ok=set(k[1] for k in v)==set(k[1] for k in ref)
    if ok:
        for (c,k),p in v.items():
            pr=ref[(0,k)]
            r=[ (a,b) for a,b in zip(p,pr)]
            ok=ok and len(p)==len(pr)
            sq=(E.c if c else 1)
            ratio=[a/b for a,b in r if b!=0]
            ok=ok and all((a==0)==(b==0) for a,b in r) and len(set(ratio))<=1
            if ok and ratio: ok=ratio[0]>0 and ratio[0]**2*sq==N
    if not ok:
        bad+=1; print('BAD',n,m,d,'line',l,v.keys(),ref.keys(),E.c)
print('bad',bad)
