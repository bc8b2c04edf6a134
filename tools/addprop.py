"""addprop.py FILE.json: {title, statement, quantifier, why, anchors, how}: append a property to props1.py and design_how.py."""
import sys, json, re
d=json.load(open(sys.argv[1]))
p='/verif/tools/props1.py'; s=open(p).read()
i=s.index("with open('/verif/properties.jsonl'")
n=len(re.findall(r'^p\(',s,re.M))+1
blk="p(%s,\n  %s,\n  %s,\n  %s,\n  %s)\n"%tuple(json.dumps(d[x]) for x in ('title','statement','quantifier','why','anchors'))
s=s[:i]+blk+s[i:]; open(p,'w').write(s)
p='/verif/tools/design_how.py'; s=open(p).read().rstrip()
assert s.endswith('}')
s=s[:-1]+'"C%02d":%s,\n}\n'%(n,json.dumps(d['how'])); open(p,'w').write(s)
print('C%02d'%n)
