#!/usr/bin/env python3
"""Regenerates MANIFEST.json from the table below."""
import json, re, glob
T = {}
def c(p, status, note, *thms): T[p] = dict(property=p, status=status, theorems=list(thms), note=note)
exec(open('/verif/tools/claims.py').read())
names=set()
for f in glob.glob('/verif/rocq/theories/*.v'):
    names |= set(re.findall(r'^\s*(?:Theorem|Lemma|Corollary|Example)\s+([A-Za-z0-9_\']+)', open(f).read(), re.M))
props=[json.loads(l)['id'] for l in open('/verif/properties.jsonl')]
out=[]
for p in props:
    if p in T:
        for t in T[p]['theorems']:
            assert t in names, (p,t)
        out.append(T[p])
    else: print('missing', p)
json.dump({"claims":out}, open('/verif/MANIFEST.json','w'), indent=1)
print(len(out),'claims')
