#!/usr/bin/env python3
"""Mutation testing of the theorems. Usage: mutate.py BASE MUTS.json OUT.jsonl [jobs]
BASE is a built copy of /verif/rocq outside /verif. Each mutation {file, definition, old, new, edit, claim} is applied to
a copy of BASE; every file that depends on the edited one is recompiled. A proof that no longer checks is replaced by
Admitted (in the copy only) so that the rest can be examined; a theorem counts as failed when its
Print Assumptions then lists one of these."""
import sys,os,re,json,shutil,subprocess
from concurrent.futures import ThreadPoolExecutor
base,mf,out=sys.argv[1:4]; jobs=int(sys.argv[4]) if len(sys.argv)>4 else 3
files=[l.strip() for l in open(base+'/_CoqProject') if l.strip().endswith('.v')]
def deps():
    d={}
    for f in files:
        s=open(f'{base}/{f}').read()
        m=set()
        for r in re.findall(r'From Verif Require (?:Import|Export) ([^.]*)\.',s): m|=set(r.split())
        d[f]={f'theories/{x}.v' for x in m}
    return d
D=deps()
order=[];seen=set()
def visit(f):
    if f in seen: return
    seen.add(f)
    for g in sorted(D[f]): visit(g)
    order.append(f)
for f in files: visit(f)
START=re.compile(r'^\s*(?:Local |Global |#\[[^]]*\]\s*)*(Lemma|Theorem|Corollary|Example|Fact|Remark|Proposition|Instance)\s+(\w+)')
ENDS=re.compile(r'(Qed|Defined)\.')
def run(i,m):
    w=f'/tmp/mut/w{i}'; shutil.rmtree(w,ignore_errors=True); shutil.copytree(base,w,symlinks=True)
    f='theories/'+m['file']; s=open(f'{w}/{f}').read()
    if s.count(m['old'])!=1: return dict(m,error=f"pattern occurs {s.count(m['old'])} times")
    open(f'{w}/{f}','w').write(s.replace(m['old'],m['new']))
    dirty={f}; admitted=[]; failed=[]; 
    for g in order:
        if g!=f and not (D[g]&dirty): continue
        dirty.add(g)
        for _ in range(60):
            try:
                p=subprocess.run(['coqc','-w','none','-time','-Q','theories','Verif',g],cwd=w,capture_output=True,text=True,timeout=420)
                rc,so,se=p.returncode,p.stdout,p.stderr
            except subprocess.TimeoutExpired as e:
                rc,so,se=124,(e.stdout or b'').decode(),''
            if rc==0: break
            src=open(f'{w}/{g}').read()
            if rc==124:
                cs=re.findall(r'^Chars (\d+) - (\d+)',so,re.M); 
                line=src.encode()[:int(cs[-1][1])+2].decode(errors='ignore').count('\n')+1 if cs else 1
            else:
                mm=re.search(r'line (\d+), characters',se); line=int(mm.group(1)) if mm else 1
            L=src.split('\n'); a=line-1
            while a>=0 and not START.match(L[a]): a-=1
            if a<0: return dict(m,error=f'{g}: {se[-300:]}')
            b=a
            while b<len(L) and not ENDS.search(L[b]): b+=1
            txt='\n'.join(L[a:b+1]); name=START.match(L[a]).group(2)
            k=re.search(r'\bProof\b[^.]*\.',txt)
            if b<line-1 or not k or line-1-a < txt[:k.start()].count('\n'): return dict(m,error=f'{g}:{line} {name} not in a proof: {se[-300:]}')
            new=txt[:k.start()]+'Proof. Admitted.'
            new+= '\n'*(txt.count('\n')-new.count('\n'))
            open(f'{w}/{g}','w').write('\n'.join(L[:a])+('\n' if a else '')+new+'\n'+'\n'.join(L[b+1:]))
            admitted.append(name)
        else: return dict(m,error=f'{g}: too many failures',admitted=admitted)
        if 'Print Assumptions' in open(f'{w}/{g}').read():
            names=re.findall(r'^Print Assumptions (\w+)',open(f'{w}/{g}').read(),re.M)
            res=re.findall(r'^(Closed under the global context|Axioms:)',so,re.M)
            assert len(names)==len(res),(g,len(names),len(res))
            failed+=[n for n,r in zip(names,res) if r=='Axioms:']
    shutil.rmtree(w,ignore_errors=True)
    return dict(m,broken_proofs=admitted,failed=failed)
ms=json.load(open(mf)); done=set()
def go(im):
    try: r=run(*im)
    except Exception as e: r=dict(im[1],error=repr(e))
    with open(out,'a') as o: o.write(json.dumps(r)+'\n')
    print(im[0],r['definition'],r.get('error') or r['failed'] or 'SURVIVED',flush=True)
with ThreadPoolExecutor(jobs) as ex: list(ex.map(go,enumerate(ms)))
