#!/usr/bin/env python3
"""addrows.py FILE: append property rows. FILE holds one JSON array of rows
[id,title,statement,quantifier,why,[anchors],model,proof,status,theorems,note]."""
import json,sys
rows=json.load(open(sys.argv[1]))
have={json.loads(l)["id"] for l in open('/verif/properties.jsonl')}
with open('/verif/properties.jsonl','a') as f, open('/verif/DESIGN.md','a') as d, open('/verif/tools/claims.txt','a') as c:
    for i,t,s,q,w,a,m,p,st,th,n in rows:
        assert i not in have, i
        f.write(json.dumps(dict(id=i,title=t,statement=s,quantifier=q,why_tests_cant=w,anchors=a))+"\n")
        d.write(f"| {i} | {t} | {m}. | {p}. |\n")
        c.write(f"{i} | {st} | {th} | {n}\n")
