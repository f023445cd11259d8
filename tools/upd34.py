import json
from setp import setp
P={json.loads(l)['id']:json.loads(l) for l in open('/verif/properties.jsonl')}
p=P['C56']
s=p['statement'].replace("In each direction the exclusion radius of a ball of radius eps is beta eps","In each direction a ball of any small enough radius eps cuts the ray at a distance (exclusion radius) tending to zero with eps, and every such distance is beta eps")
assert s!=p['statement']
p['statement']=s; setp(**p)
