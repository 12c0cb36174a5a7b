#!/usr/bin/env python3
"""mklog.py OUT.jsonl...: append the results of tools/mutate.py to seeded/LOG.jsonl (attempts whose edit did not apply
or did not typecheck are skipped). An attempt already in the log (same definition and edit) is not repeated."""
import json,sys,re,os
LOG='/verif/seeded/LOG.jsonl'
have=set()
if os.path.exists(LOG):
    for l in open(LOG):
        d=json.loads(l); have.add((d['definition'],d['edit']))
tight={'b7':['C90_aabb_center'],'b10':['C91'],'b3':['C97'],'g7':['C97']}
names=set(re.findall(r'(?:Theorem|Lemma) (C\d+\w*)',''.join(open(os.path.join('/verif/rocq/theories',f)).read() for f in os.listdir('/verif/rocq/theories') if f.startswith('Properties') and f.endswith('.v'))))
def full(x): return sorted(n for n in names if n.split('_')[0]==x.split('_')[0])
n=0
with open(LOG,'a') as out:
    for f in sys.argv[1:]:
        for l in open(f):
            d=json.loads(l)
            if d.get('status')!='ok': continue
            key=(d['def'],d['edit'])
            if key in have: continue
            have.add(key)
            t=d.get('tightened') or sum([full(x) for x in tight.get(d['id'],[])],[])
            surv=d.get('survivors') or {}
            out.write(json.dumps({'definition':d['def'],'file':d['file'],'edit':d['edit'],'old':d['old'],'new':d['new'],'breaks':d['breaks'],
              'theorems_failed':d['failed'],'theorems_of_broken_claims_that_still_prove':sum(surv.values(),[]),'theorems_tightened':t})+'\n')
            n+=1
print(n,'added')
