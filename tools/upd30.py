import json
P=[json.loads(l) for l in open('/verif/properties.jsonl')]
for d in P:
    if d['id']=='C75':
        d['statement']+=" For whole runs: an FMM run and a Direct run of the same problem on any numbers of processes and partitions, stopped with residuals at most e1 and e2, return at every mesh node potentials and fluxes that differ by at most M(1+W)(e1+e2+err) whenever the exact problem has a solution."
        d['quantifier']+="; all meshes, numbers of processes, partitions and FMM executions for whole runs"
open('/verif/properties.jsonl','w').write('\n'.join(json.dumps(d) for d in P)+'\n')
s=open('/verif/DESIGN.md').read()
import re
i=s.index('C86 negative integer'); j=s.index('\n',i)
s=s[:j]+' C87 different scalar and vector elements with equal node counts silently give nodes the normals of other cells, fewer vector nodes read outside the tables;'+s[j:]
open('/verif/DESIGN.md','w').write(s)
