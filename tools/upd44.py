import json,sys
P='/verif/properties.jsonl'
L=[json.loads(x) for x in open(P) if x.strip()]
for d in L:
    if d['id']=='C93':
        d['statement']=d['statement'].rstrip()+" The centres themselves are the middles of the blocks, each coordinate right up to two roundings of the size of its terms, and without rounding the same routines give the expansions and the product of the exact program."
open(P,'w').write('\n'.join(json.dumps(d,ensure_ascii=False) for d in L)+'\n')
D='/verif/DESIGN.md'; s=open(D).read()
s=s.replace("the relation demanding finiteness of an expansion only if nothing it receives is spoilt |","the relation demanding finiteness of an expansion only if nothing it receives is spoilt; centres by two roundings; with exact arithmetic the object is the one of the exact product, step by step |")
open(D,'w').write(s)
t=json.load(open('/tmp/mut/tight.json')); t.update({"db1":["C93_centres","C93_without_rounding"],"db2":["C93_centres","C93_without_rounding"]}); json.dump(t,open('/tmp/mut/tight.json','w'))
L=[json.loads(x) for x in open(P) if x.strip()]
for d in L:
    if d['id']=='C94':
        d['statement']=d['statement'].rstrip()+" After any history of calls that stays finite (charges, dipoles, scaled sums and translations for a multipole expansion; translations and conversions for a local one) every coefficient is right up to that number of roundings per call, relative to the size of all terms of the history."
open(P,'w').write('\n'.join(json.dumps(d,ensure_ascii=False) for d in L)+'\n')
s=open(D).read()
s=s.replace("number of roundings counted through each factor and each sum (ap, near of ProofsFloat)","number of roundings counted through each factor and each sum (ap, near of ProofsFloat); histories by induction on the calls, the error of what was there growing with each addition")
open(D,'w').write(s)
