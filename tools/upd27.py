import json
from setp import setp
P={json.loads(l)['id']:json.loads(l) for l in open('/verif/properties.jsonl')}
d=dict(P['C45']); d['statement']=d['statement'].replace("at a corner belonging to one cell the second end is taken to be the origin (findings).",
 "a face cut in the middle on one side of an edge only is cut on the other side by the next pass, so that the hanging vertex gets a partner; a face cut twice on one side is not, and the loop stops with both vertices unmatched (a user would expect conformity: refuted). At a corner belonging to one cell the second end is taken to be the origin; if such a corner lies at the origin, the loop goes on cutting its cell until some vertex is within 1e-7 of it (findings).")
setp(**d)
d=dict(P['C67']); d['statement']+=" This holds for whole runs from the mesh: the FMM run on any number of processes and the Direct run on any other, with any partitions, differ node by node by at most that."
setp(**d)
