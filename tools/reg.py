#!/usr/bin/env python3
# reg.py FILE.v ID STATUS "thm1,thm2" "note"   - register a theory file and a claim
import sys,re
f,i,st,th,note=sys.argv[1:6]
p='/verif/rocq/_CoqProject'; s=open(p).read()
if f!='-' and 'theories/'+f not in s: open(p,'w').write(s.rstrip()+'\ntheories/'+f+'\n')
p='/verif/tools/claims.py'; s=open(p).read().rstrip()
s='\n'.join(l for l in s.split('\n') if not l.startswith('("%s",'%i))
assert s.endswith(']')
s=s[:-1]+'("%s","%s",[%s],%s),\n]\n'%(i,st,','.join('"%s"'%t for t in th.split(',')),repr(note))
open(p,'w').write(s)
