import json,re,glob,sys
ids=sys.argv[1:]
os_=glob.glob('/verif/rocq/theories/Prop*.v')
src={f:open(f).read() for f in os_}
P={}
for l in open('/verif/properties.jsonl'):
    d=json.loads(l); P[d['id']]=d
for i in ids:
    d=P[i]; print('=====',i,d['title']); print('STATEMENT:',d['statement']); print('QUANT:',d['quantifier'])
    for f,s in sorted(src.items()):
        for m in re.finditer(r'(?:Theorem|Lemma|Example) ('+i+r'_\w+)(.*?)\nProof',s,re.S):
            print('--',f.split('/')[-1],m.group(1),re.sub(r'\s+',' ',m.group(2)))
