#!/usr/bin/env python3
"""Mutation harness: applies one edit to a scratch copy of the model, rebuilds, repeatedly replaces each broken proof
by an axiom `cheat` (scratch copy only) and finally reports which property theorems depend on a broken proof.
usage: mutate.py MUTANTS.json [ids...]   (appends to ../seeded/LOG.jsonl)"""
import json, os, re, shutil, subprocess, sys
SRC='/verif/rocq'; W='/tmp/mut/work'; BASE='/tmp/mut/base'
THM=re.compile(r'^\s*(?:Local\s+)?(Lemma|Theorem|Corollary|Example|Fact|Remark)\s+(\w+)')
def sh(c,cwd,t=1500):
    try: return subprocess.run(c,shell=True,cwd=cwd,capture_output=True,text=True,timeout=t)
    except subprocess.TimeoutExpired as e:
        class R: stdout='';stderr='TIMEOUT';returncode=99
        return R
def using():
    f='/tmp/mut/using.json'
    if os.path.exists(f): return json.load(open(f))
    return {}
def prepare():
    """fresh compiled copy of the model with the suggestions for section variables"""
    shutil.rmtree(BASE,ignore_errors=True); os.makedirs('/tmp/mut',exist_ok=True)
    shutil.copytree(SRC,BASE,ignore=shutil.ignore_patterns('*.vo*','*.glob','*.aux','.*'))
    u={}
    sh('coq_makefile -f _CoqProject -o Makefile',BASE)
    r=sh('make -j4 -Otarget COQEXTRAFLAGS=\'-set "Suggest Proof Using=yes"\'',BASE,2400)
    cur=''
    for m in re.finditer(r'COQC theories/(\w+)\.v|The proof of (\w+)\s+should start with one of the following commands:\s*\n?\s*(Proof using[^.]*)\.',r.stdout):
        if m.group(1): cur=m.group(1)
        else: u[cur+'.'+m.group(2)]=m.group(3)
    json.dump(u,open('/tmp/mut/using.json','w'))
    shutil.copy('/verif/MANIFEST.json',BASE+'/MANIFEST.json')
    print('base',r.returncode,len(u)); assert r.returncode==0
def enclosing(lines,ln):
    i=ln-1
    while i>=0 and not THM.match(lines[i]): i-=1
    if i<0: return None
    j=i
    while j<len(lines) and not re.search(r'\b(Qed|Defined)\.',lines[j]): j+=1
    if j<ln-1: return None
    return i,j,THM.match(lines[i]).group(2)
def prop_theorems():
    m=json.load(open(BASE+'/MANIFEST.json')); d={}
    for root,_,fs in os.walk(BASE+'/theories'):
        for f in fs:
            if f.endswith('.v'):
                for l in open(os.path.join(root,f)):
                    k=THM.match(l)
                    if k: d[k.group(2)]=f[:-2]
    return [(t,d[t],c['property']) for c in m['claims'] for t in c['theorems']]
def run(mu):
    shutil.rmtree(W,ignore_errors=True)
    subprocess.run(['cp','-a',BASE,W],check=True)
    p=f"{W}/theories/{mu['file']}.v"; s=open(p).read()
    assert s.count(mu['old'])>=1,('no match',mu['id'])
    assert s.count(mu['old'])==1 or mu.get('first'),('ambiguous',mu['id'],s.count(mu['old']))
    open(p,'w').write(s.replace(mu['old'],mu['new'],1))
    for d in [W+'/theories']:
        pass
    b=f'{W}/theories/Base.v'
    broken=[]; u=using(); fatal=None
    # the cheat axiom lives in its own file so Base is not rebuilt
    open(W+'/theories/Cheat.v','w').write('Axiom cheat : forall A : Type, A.\n')
    sh('coqc -Q theories Verif theories/Cheat.v',W)
    for it in range(60):
        r=sh('nice make -k -j2 TIMECMD="timeout 300"',W)
        if r.returncode==0: break
        errs={}
        txt=r.stderr+r.stdout
        for m in re.finditer(r'File "\./theories/(\w+)\.v", line (\d+), characters [^\n]*\n(?!Warning)(Error[^\n]*\n?[^\n]*)',txt):
            errs.setdefault(m.group(1),(int(m.group(2)),m.group(3)))
        for m in re.finditer(r'\[[^\]]*theories/(\w+)\.vo\] Error (124|137)',txt):
            errs.setdefault(m.group(1),(None,'timeout'))
        if not errs: fatal='no error location: '+txt[-400:]; break
        stop=True
        for f,(ln,msg) in errs.items():
            q=f'{W}/theories/{f}.v'; L=open(q).read().split('\n')
            if ln is None: fatal=f'timeout in {f}'; continue
            e=enclosing(L,ln)
            if e is None: fatal=f'{f}:{ln} not in a proof: {msg}'; continue
            i,j,name=e
            # statement text up to Proof
            k=i
            while k<=j and not re.search(r'\bProof\b',L[k]): k+=1
            if k>j: fatal=f'{f}:{ln} no Proof'; continue
            if any('Cheat.cheat' in x for x in L[k:j+1]): fatal=f'{f}:{ln} statement of {name}: {msg}'; continue
            if ln-1<k or (ln-1==k and L[k].strip()=='Proof.' and 0): fatal=f'{f}:{ln} statement of {name}: {msg}'; continue
            head=L[k][:L[k].index('Proof')]
            pu=u.get(f+'.'+name,'Proof using')
            if name in ('',): pass
            if not in_section(L,i): pu='Proof'
            L[k:j+1]=[head+pu+'. exact (Verif.Cheat.cheat _). Qed.']
            t='\n'.join(L)
            if 'Require Verif.Cheat.' not in t: t='Require Verif.Cheat. '+t
            open(q,'w').write(t); broken.append(f'{f}.{name}'); stop=False
        if stop: break
        fatal=None
    res=[]
    if not fatal:
        pt=prop_theorems()
        mods=sorted({m for _,m,_ in pt})
        src='From Verif Require '+' '.join(mods)+'.\n'+''.join(f'Redirect "/tmp/mut/pa_{t}" Print Assumptions {m}.{t}.\n' for t,m,_ in pt)
        open(W+'/PA.v','w').write(src)
        r=sh('coqc -Q theories Verif PA.v',W)
        if r.returncode: fatal='PA '+r.stderr[-300:]
        for t,m,c in pt:
            f=f'/tmp/mut/pa_{t}.out'
            if os.path.exists(f):
                if 'cheat' in open(f).read(): res.append(t)
                os.remove(f)
    else:
        # what could not be built
        pt=prop_theorems()
        nb=[t for t,m,_ in pt if not os.path.exists(f'{W}/theories/{m}.vo')]
        res=['(not built) '+t for t in nb]
    return broken,res,fatal
def in_section(L,i):
    d=0
    for x in L[:i]:
        if re.match(r'\s*Section\s+\w+\.',x): d+=1
        elif re.match(r'\s*End\s+\w+\.',x): d-=1
    return d>0
def main():
    if sys.argv[1]=='prepare': return prepare()
    ms=json.load(open(sys.argv[1])); ids=sys.argv[2:]
    for mu in ms:
        if ids and mu['id'] not in ids: continue
        try: broken,res,fatal=run(mu)
        except AssertionError as e: print(mu['id'],'SKIPPED',e,flush=True); continue
        hit=bool(res)
        expected=[t for t in mu.get('expect',[])]
        miss=[t for t in expected if not any(t in x for x in res)]
        print(mu['id'],'KILLED' if hit else 'SURVIVED','expected-but-alive:',miss,'| broken:',broken[:6],'| theorems:',res,'| fatal:',fatal,flush=True)
        rec=dict(id=mu['id'],definition=mu['definition'],file='rocq/theories/%s.v'%mu['file'],edit=mu['edit'],old=mu['old'],new=mu['new'],claim=mu['claim'],
                 proofs_broken=broken,theorems_failed=res,theorems_still_proved_but_expected=miss,theorems_tightened=mu.get('tightened',[]))
        if fatal: rec['note']=fatal
        open('/tmp/mut/results.jsonl','a').write(json.dumps(rec)+'\n')
main()
