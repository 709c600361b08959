#!/usr/bin/env python3
"""Converts results of mutate.py (JSON lines) to seeded/LOG.jsonl entries: mutlog.py OUT.jsonl [TIGHTENED.json]
TIGHTENED maps "definition|edit" to a list of theorems that were tightened because the bug survived."""
import json,sys,os
os.chdir(os.path.dirname(os.path.abspath(__file__))+'/..')
t=json.load(open(sys.argv[2])) if len(sys.argv)>2 else {}
seen=set()
try:
    for l in open('seeded/LOG.jsonl'):
        d=json.loads(l); seen.add((d['definition'],d['edit']))
except FileNotFoundError: pass
with open('seeded/LOG.jsonl','a') as f:
    for l in open(sys.argv[1]):
        d=json.loads(l)
        if d.get('error') or d.get('failed') is None: continue
        df=d['definition'].split(': ')[-1]; k=(d['file']+': '+df,d['edit'])
        if k in seen: continue
        seen.add(k)
        f.write(json.dumps({'definition':k[0],'edit':d['edit'],'old':d['old'],'new':d['new'],'claim_broken':d['claim'],
          'theorems_failed':d['failed'],'first_broken_proofs':d.get('broken_proofs',[])[:12],'theorems_tightened':t.get('|'.join(k),[])})+'\n')
