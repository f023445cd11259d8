import json
tight={"m9":["C25_rhs_incoming_vector","C25_rhs_overwrites_iff"],"t19":["C34_*"],"x23":["C05_vectors_order_zero"],"x24":["C05_vectors_order_zero"]}
try: tight.update(json.load(open('/tmp/mut/tight.json')))
except FileNotFoundError: pass
notes={}
try: notes=json.load(open('/tmp/mut/notes.json'))
except FileNotFoundError: pass
rs={}
order=[]
hist={}
for l in open('/tmp/mut/results.jsonl'):
    d=json.loads(l)
    i=d['id']
    if d['res'].get('error') and 'pattern' in str(d['res']['error']): continue
    i=(i,d['def'])
    hist.setdefault(i,[]).append(d)
    if i not in order: order.append(i)
out=[]
for key in order:
    i=key[0]
    for k,d in enumerate(hist[key]):
        r=d['res']
        e={"id":i,"attempt":k+1,"definition":d['def'],"edit":d['edit'],"claim_broken":d['claim'],
           "theorems_failed":r.get('theorems',[]),"first_lemmas_failed":[x[1] for x in r.get('lemmas',[])],
           "theorems_tightened":tight.get(i,[]) if not r.get('theorems') else []}
        if not r.get('theorems'):
            e["note"]=("rejected by the type checker in a statement or definition (the edit changes the arguments): repeated as another attempt with the arguments kept" if r.get('broken') else
                      "survived on this attempt" + (": tightened, see the next attempt" if i in tight else notes.get(i,"")))
        out.append(json.dumps(e))
open('/verif/seeded/LOG.jsonl','w').write("\n".join(out)+"\n")
print(len(out))
