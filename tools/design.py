#!/usr/bin/env python3
# regenerates DESIGN.md from tools/design_head.md, tools/design_tail.md, the claims and Print Assumptions
import json,re,subprocess,glob,os,sys
sys.path.insert(0,'/verif/tools')
from claims import CLAIMS
from design_how import HOW
props={}
for l in open('/verif/properties.jsonl'):
    d=json.loads(l); props[d['id']]=d
where={}
for f in sorted(glob.glob('/verif/rocq/theories/*.v')):
    for m in re.finditer(r'^(?:Theorem|Lemma|Corollary) (\w+)',open(f).read(),re.M): where.setdefault(m.group(1),os.path.basename(f)[:-2])
mods=[l.strip()[9:-2] for l in open('/verif/rocq/_CoqProject') if l.startswith('theories/')]
thms=[t for c in CLAIMS for t in c[2]]
with open('/tmp/pa.v','w') as g:
    for m in mods: g.write('From Verif Require %s.\n'%m)
    for t in thms: g.write('Goal True. idtac "@@ %s". Abort.\nPrint Assumptions %s.%s.\n'%(t,where[t],t))
out=subprocess.run('coqc -Q /verif/rocq/theories Verif /tmp/pa.v',shell=True,capture_output=True,text=True)
txt=out.stdout
ax={}
cur=None
for l in txt.split('\n'):
    if l.startswith('@@ '): cur=l[3:].strip(); ax[cur]=[]
    elif cur:
        m=re.match(r'^([A-Za-z_][\w.]*)\s*(:.*)?$',l)
        if m and not l.startswith('Axioms') and not l.startswith('Closed'): ax[cur].append(m.group(1))
assert len(ax)==len(set(thms)),(len(ax),len(thms),out.stderr[-500:])
allax=sorted({a for v in ax.values() for a in v})
groups={}
for t in thms: groups.setdefault(tuple(sorted(set(ax[t]))),[]).append(t)
o=open('/verif/tools/design_head.md').read()
o+='\n## Properties: what is modelled and how it is proved\n\n| id | property | theorems (file) | model and proof | status |\n|---|---|---|---|---|\n'
for c in sorted(CLAIMS,key=lambda c:c[0]):
    th='<br>'.join('`%s` (%s)'%(t,where[t]) for t in c[2])
    o+='| %s | %s | %s | %s%s | %s |\n'%(c[0],props[c[0]]['title'],th,HOW.get(c[0],''),('. Note: '+c[3]) if c[3] else '',c[1])
o+='\n'+open('/verif/tools/design_tail.md').read()
o+='\n### Assumptions reported by `Print Assumptions`\n\n'
for g,ts in sorted(groups.items(),key=lambda x:len(x[0])):
    if not g: o+='* Closed under the global context (no axioms): %d theorems: %s.\n'%(len(ts),', '.join('`%s`'%t for t in ts))
    else: o+='* %s: axioms %s.\n'%(', '.join('`%s`'%t for t in ts),', '.join('`%s`'%a for a in g))
open('/verif/DESIGN.md','w').write(o)
print(len(thms),'theorems;',len(allax),'axioms:',allax)
