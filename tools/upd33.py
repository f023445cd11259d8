import json
from setp import setp
P={json.loads(l)['id']:json.loads(l) for l in open('/verif/properties.jsonl')}
p=P['C80']
s=p['statement']
s=s.replace("the normal derivative has no relative accuracy of its own (refuted).","the normal derivative has no relative accuracy of its own (refuted). In 2D each component of the gradient kernel has 18 roundings, and -log(r)/(2 pi) an error of ten roundings of (|log r| + 1)/(2 pi); near r = 1 it has no relative accuracy (refuted: in double precision the point (1, 2^-40) gets 0).")
assert s!=p['statement']
p['statement']=s
setp(**p)
p=P['C89']
s=p['statement'].replace("In 3D Direct mode","In Direct mode, 2D or 3D,")
assert s!=p['statement']
p['statement']=s
setp(**p)
