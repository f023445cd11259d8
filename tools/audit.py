import json,re,glob,sys
props=[json.loads(l) for l in open('/verif/properties.jsonl')]
thm={}
for f in sorted(glob.glob('/verif/rocq/theories/Prop*.v')):
    s=open(f).read()
    for m in re.finditer(r'Theorem (C(\d\d)_\w+)(.*?)\nProof',s,re.S):
        thm.setdefault('C'+m.group(2),[]).append((f.split('/')[-1],m.group(1),m.group(3).strip()))
out=[]
for p in props:
    out.append('=== %s %s\nST: %s\nQ: %s\n'%(p['id'],p['title'],p['statement'],p['quantifier']))
    for f,n,t in thm.get(p['id'],[]):
        out.append('  -- %s [%s]\n  %s\n'%(n,f,t))
open('/tmp/work/audit.txt','w').write('\n'.join(out))
