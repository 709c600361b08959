#!/usr/bin/env python3
"""Writes DESIGN.md: tools/design_head.md + a table generated from properties.jsonl and MANIFEST.json + tools/design_tail.md."""
import json,os
os.chdir(os.path.dirname(os.path.abspath(__file__))+'/..')
props={}
for l in open('properties.jsonl'):
    if l.strip(): d=json.loads(l); props[d['id']]=d
man={c['property']:c for c in json.load(open('MANIFEST.json'))['claims']}
plan=json.load(open('tools/plan.json'))
o=open('tools/design_head.md').read()
o+='\n## 4. Properties: what is modelled, how it is proved, result\n\n| id | property | modelled | proof | result |\n|---|---|---|---|---|\n'
for i,p in props.items():
    pl=plan.get(i,['','']); c=man.get(i,{})
    o+=f"| {i} | {p['title']} | {pl[0]} | {pl[1]} | {c.get('status','')}{': '+c['note'] if c.get('note') else ''} |\n"
o+='\n'+open('tools/design_tail.md').read()
open('DESIGN.md','w').write(o)
