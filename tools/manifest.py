"""Helper: add or replace a claim in MANIFEST.json."""
import json, os, re
P=os.path.join(os.path.dirname(__file__),'..','MANIFEST.json')
TH=os.path.join(os.path.dirname(__file__),'..','rocq','theories')
def claim(prop,status,theorems,note):
    try: m=json.load(open(P))
    except FileNotFoundError: m={"claims":[]}
    names=set()
    for f in os.listdir(TH):
        if f.endswith('.v'):
            names|=set(re.findall(r'^(?:Theorem|Lemma|Corollary)\s+(\w+)',open(os.path.join(TH,f)).read(),re.M))
    for t in theorems: assert t in names, t
    m["claims"]=[c for c in m["claims"] if c["property"]!=prop]+[dict(property=prop,status=status,theorems=theorems,note=note)]
    m["claims"].sort(key=lambda c:c["property"])
    json.dump(m,open(P,'w'),indent=1)
