# runs coqc on Assumptions*.v and writes /verif/ASSUMPTIONS.md (what Print Assumptions lists, per theorem)
import subprocess,re,glob
T='/verif/rocq/theories/'
res={}
for f in sorted(glob.glob(T+'Assumptions*.v')):
    names=re.findall(r'^Print Assumptions (\w+)\.',open(f).read(),re.M)
    p=subprocess.run(['coqc','-Q',T,'Verif',f],capture_output=True,text=True); out=p.stdout
    # split
    chunks=[];cur=None
    for l in out.split('\n'):
        if l.startswith('Closed under the global context'): chunks.append([]); cur=None
        elif l.startswith('Axioms:'): cur=[]; chunks.append(cur)
        elif cur is not None:
            m=re.match(r'^(\S+) ?:?',l)
            if m and not l.startswith(' ') and m.group(1): cur.append(m.group(1))
    assert len(chunks)==len(names),(f,len(chunks),len(names))
    for n,c in zip(names,chunks): res[n]=tuple(sorted(set(c)))
groups={}
for n in sorted(res): groups.setdefault(res[n],[]).append(n)
o=open('/verif/ASSUMPTIONS.md','w')
o.write('# What `Print Assumptions` lists for each theorem\n\nGenerated by tools/gen_assum.py from rocq/theories/Assumptions0-3.v (which print this at every build).\n')
for g in sorted(groups,key=len):
    o.write('\n## '+('Closed under the global context (no axioms)' if not g else ', '.join('`%s`'%a for a in g))+'\n\n')
    for n in groups[g]: o.write('- %s\n'%n)
print({g:len(v) for g,v in groups.items()})
