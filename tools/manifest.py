#!/usr/bin/env python3
# Regenerates MANIFEST.json from claims.txt lines:  ID | status | theorem, theorem | note
import json,re,glob
claims=[];names=set()
for f in glob.glob('/verif/rocq/theories/Properties_*.v'):
    names|=set(re.findall(r'^Theorem\s+(\w+)',open(f).read(),re.M))
used=set()
for l in open('/verif/tools/claims.txt'):
    l=l.strip()
    if not l or l.startswith('#'): continue
    i,s,t,n=[x.strip() for x in l.split('|',3)]
    th=[x.strip() for x in t.split(',') if x.strip()]
    for x in th:
        assert x in names,(i,x)
        used.add(x)
    assert s in('proved','partial','not_applicable'),l
    claims.append(dict(property=i,status=s,theorems=th,note=n))
ids=[json.loads(l)['id'] for l in open('/verif/properties.jsonl')]
have={c['property'] for c in claims}
print('missing:',[i for i in ids if i not in have]); print('unused:',names-used)
json.dump({"claims":claims},open('/verif/MANIFEST.json','w'),indent=1)
