#!/usr/bin/env python3
"""updrows.py FILE: replace existing property rows (same format as addrows.py); null keeps a field."""
import json,sys
rows={r[0]:r for r in json.load(open(sys.argv[1]))}
P='/verif/properties.jsonl'; D='/verif/DESIGN.md'; C='/verif/tools/claims.txt'
out=[]
for l in open(P):
    o=json.loads(l)
    if o["id"] in rows:
        for k,v in zip(("title","statement","quantifier","why_tests_cant","anchors"),rows[o["id"]][1:6]):
            if v is not None: o[k]=v
        l=json.dumps(o)+"\n"
    out.append(l)
open(P,'w').writelines(out)
out=[]
for l in open(D):
    f=l.split(" | ")
    i=f[0].replace("| ","").strip()
    if l.startswith("| C") and i in rows and len(f)==4:
        r=rows[i]
        if r[1] is not None: f[1]=r[1]
        if r[6] is not None: f[2]=r[6]+"."
        if r[7] is not None: f[3]=r[7]+". |\n"
        l=" | ".join(f)
    out.append(l)
open(D,'w').writelines(out)
out=[]
for l in open(C):
    i=l.split(" | ")[0]
    if i in rows:
        f=l.rstrip("\n").split(" | ",3)
        for j,k in ((1,8),(2,9),(3,10)):
            if rows[i][k] is not None: f[j]=rows[i][k]
        l=" | ".join(f)+"\n"
    out.append(l)
open(C,'w').writelines(out)
