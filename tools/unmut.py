import re,json,sys,os
done=set()
for l in open('/tmp/mut/results.jsonl'):
    d=json.loads(l); 
    for x in re.split(r'[ ,/]+',d.get('def') or ''): done.add(x)
for f in sys.argv[1:]:
    s=open(f'/verif/rocq/theories/{f}.v').read()
    parts=re.split(r'\n(?=\s*(?:Definition|Fixpoint|Inductive|Record|Section|End|\(\*\*))',s)
    print('==',f)
    for p in parts:
        m=re.match(r'\s*(Definition|Fixpoint)\s+([\w\']+)',p)
        if m and m.group(2) not in done: print(p.rstrip()[:900])
