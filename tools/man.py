import json,glob,re,collections
# collect theorem names by property id from Prop*.v
th=collections.defaultdict(list)
for f in sorted(glob.glob('/verif/rocq/theories/Prop*.v')):
    for m in re.finditer(r'^\s*Theorem (C\d\d)(_\w+)',open(f).read(),re.M):
        th[m.group(1)].append(m.group(1)+m.group(2))
exec(open('/tmp/work/notes.py').read())
claims=[]
for i in sorted(th):
    st,note=notes.get(i,("proved",""))
    claims.append({"property":i,"status":st,"theorems":th[i],"note":note})
for i,(st,note) in sorted(notes.items()):
    if i not in th: claims.append({"property":i,"status":st,"theorems":[],"note":note}); print("no theorem",i)
json.dump({"claims":claims},open('/verif/MANIFEST.json','w'),indent=1)
ids=[json.loads(l)['id'] for l in open('/verif/properties.jsonl')]
print("unclaimed",[i for i in ids if i not in [c['property'] for c in claims]])
