import json
def load(): return [json.loads(l) for l in open('/verif/properties.jsonl')]
def save(P): open('/verif/properties.jsonl','w').write(''.join(json.dumps(d)+'\n' for d in P))
def setp(**kw):
    P=load(); i=kw.pop('id')
    for d in P:
        if d['id']==i: d.update(kw); break
    else:
        P.append(dict(id=i,**kw))
    save(P)
