#!/usr/bin/env python3
"""Regenerates MANIFEST.json from the theorem names in rocq/theories/*Props.v and the notes below."""
import re,glob,json
import os
os.chdir(os.path.dirname(os.path.abspath(__file__))+'/..')
props=[json.loads(l) for l in open('properties.jsonl') if l.strip()]
thms={}
for f in sorted(glob.glob('rocq/theories/*Props*.v')):
    for m in re.finditer(r'^\s*(?:Theorem|Corollary)\s+(C\d+)_(\w+)',open(f).read(),re.M):
        thms.setdefault(m.group(1),[]).append(m.group(0).split()[-1])
notes=json.load(open('tools/notes.json'))
claims=[]
for p in props:
    i=p['id']; t=thms.get(i,[]); n=notes.get(i,{})
    st=n.get('status') or ('not_applicable' if not t else 'partial' if any('_partial' in x or '_refuted' in x for x in t) else 'proved')
    claims.append({'property':i,'status':st,'theorems':t,'note':n.get('note','')})
json.dump({'claims':claims},open('MANIFEST.json','w'),indent=1)
print({s:sum(c['status']==s for c in claims) for s in ('proved','partial','not_applicable')})
