#!/usr/bin/env python3
"""mklog.py: turn mutate.py's results into seeded/LOG.jsonl (one line per attempt).
tools/tightened.json: mutant id -> {"theorems":[...], "comment": "..."} for attempts that led to a tighter theorem."""
import json,os
here=os.path.dirname(os.path.abspath(__file__))
T={}
p=os.path.join(here,'tightened.json')
if os.path.exists(p): T=json.load(open(p))
out=[];seen={}
for l in open('/tmp/mut/results.jsonl'):
    r=json.loads(l); seen[r['id']]=r
for i,r in seen.items():
    if r.get('note') and i not in T: continue
    t=T.get(i,{})
    d=dict(id=i,definition=r['definition'],edit=r['edit'],claim_broken=r['claims_broken'] or 'none (harmless edit, control)',
           theorems_failed=t.get('failed',r.get('failed',[])),theorems_tightened=t.get('theorems',[]))
    s=r.get('survivors')
    if s and not t.get('failed'): d['theorems_of_the_claim_still_proved']=s
    if t.get('comment'): d['comment']=t['comment']
    out.append(json.dumps(d))
open(os.path.join(here,'..','seeded','LOG.jsonl'),'w').write('\n'.join(out)+'\n')
print(len(out))
