import json,re,glob
# (property, status, theorems, note)
exec(open('/verif/tools/claims.py').read())
ids=[json.loads(l)["id"] for l in open('/verif/properties.jsonl')]
src="\n".join(open(f).read() for f in glob.glob('/verif/rocq/theories/*.v'))
names=set(re.findall(r"^(?:Theorem|Lemma|Corollary|Example)\s+([A-Za-z0-9_']+)",src,re.M))
out=[]
for (p,st,th,note) in CLAIMS:
    assert p in ids,p
    for t in th: assert t in names,(p,t)
    out.append(dict(property=p,status=st,theorems=th,note=note))
missing=[i for i in ids if i not in [o["property"] for o in out]]
print("missing",missing)
json.dump({"claims":out},open('/verif/MANIFEST.json','w'),indent=1)
