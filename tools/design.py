#!/usr/bin/env python3
"""Writes DESIGN.md: the hand-written text below plus one row per property (files and status from MANIFEST.json)."""
import json, os, re
ROOT=os.path.dirname(os.path.dirname(os.path.abspath(__file__)))
TH=os.path.join(ROOT,'rocq','theories')
where={}
for f in sorted(os.listdir(TH)):
    if f.endswith('.v'):
        for n in re.findall(r'^(?:Theorem|Lemma|Corollary)\s+(\w+)',open(os.path.join(TH,f)).read(),re.M): where.setdefault(n,f[:-2])
props=[json.loads(l) for l in open(os.path.join(ROOT,'properties.jsonl')) if l.strip()]
claims={c['property']:c for c in json.load(open(os.path.join(ROOT,'MANIFEST.json')))['claims']}
text=open(os.path.join(ROOT,'tools','design_head.md')).read()
how=dict(re.findall(r'^(C\d+)\s*:\s*(.*)$',open(os.path.join(ROOT,'tools','design_how.txt')).read(),re.M))
rows=[]
for p in sorted(props,key=lambda p:int(p['id'][1:])):
    c=claims.get(p['id']); fs=sorted({where[t] for t in c['theorems']}) if c else []
    if p['id'] not in how: print('no method for',p['id'])
    rows.append(f"| {p['id']} | {p['title']} | {c['status'] if c else 'planned'} | {', '.join(fs)} | {how.get(p['id'],'')} |")
open(os.path.join(ROOT,'DESIGN.md'),'w').write(text+'\n## Plan per property\n\n| Id | Property | Status | Files of the theorems | What is modelled and how it is proved |\n|---|---|---|---|---|\n'+'\n'.join(rows)+'\n')
