#!/usr/bin/env python3
"""Print Assumptions for every theorem of MANIFEST.json; writes ASSUMPTIONS.md. Needs a finished build in rocq/."""
import json, os, re, subprocess, tempfile
ROOT=os.path.dirname(os.path.dirname(os.path.abspath(__file__)))
TH=os.path.join(ROOT,'rocq','theories')
where={}
for f in sorted(os.listdir(TH)):
    if f.endswith('.v'):
        for n in re.findall(r'^(?:Theorem|Lemma|Corollary)\s+(\w+)',open(os.path.join(TH,f)).read(),re.M): where.setdefault(n,[]).append(f[:-2])
claims=json.load(open(os.path.join(ROOT,'MANIFEST.json')))['claims']
todo=[]; 
for c in claims:
    for t in c['theorems']:
        for m in where[t]: todo.append((c['property'],m,t))
mods=sorted({m for _,m,_ in todo})
with tempfile.TemporaryDirectory() as d:
    p=os.path.join(d,'A.v')
    with open(p,'w') as f:
        f.write('From Coq Require Import String.\n'+''.join(f'From Verif Require {m}.\n' for m in mods))
        for i,(_,m,t) in enumerate(todo): f.write(f'Check "BEGIN{i}"%string.\nPrint Assumptions Verif.{m}.{t}.\n')
    out=subprocess.run(['coqc','-Q',TH,'Verif',p],capture_output=True,text=True,cwd=d)
    if out.returncode: print(out.stderr[:2000]); raise SystemExit(1)
parts=re.split(r'"BEGIN(\d+)"(?:%string)?\s*: string\n',out.stdout)
res={}
for i in range(1,len(parts),2):
    body=parts[i+1]
    ax=sorted(set(re.findall(r'^([A-Za-z_][\w.\']*)(?= :|\n  :|$)',body,re.M))-{'Axioms'}) if 'Closed under' not in body else []
    ax=[a for a in ax if a not in ('Closed',)]
    res[int(i and parts[i])]=ax
allax=sorted({a for v in res.values() for a in v})
groups={}
for i,(p,m,t) in enumerate(todo): groups.setdefault(tuple(res[i]),[]).append((p,m,t))
with open(os.path.join(ROOT,'ASSUMPTIONS.md'),'w') as f:
    f.write('# Print Assumptions of every theorem named in MANIFEST.json\n\nGenerated by `tools/assumptions.py` after a build. Axioms that occur: '+(', '.join(f'`{a}`' for a in allax) or 'none')+'. All are axioms of the Coq standard library.\n')
    for g in sorted(groups,key=lambda g:(len(g),g)):
        f.write('\n## '+(', '.join(f'`{a}`' for a in g) if g else 'Closed under the global context (no axioms)')+'\n\n')
        by={}
        for p,m,t in groups[g]: by.setdefault(p,[]).append(f'`{m}.{t}`')
        for p in sorted(by,key=lambda x:int(x[1:])): f.write(f'* {p}: '+', '.join(by[p])+'\n')
print(len(todo),'theorems;',allax)
