#!/usr/bin/env python3
"""Writes MANIFEST.json.  One entry per property: (status, [theorems], note)."""
import json,os
C={}
def c(i,st,th,note=""): C[i]=(st,th.split(),note)
exec(open(os.path.join(os.path.dirname(__file__),'claims.py')).read())
props=[json.loads(l)['id'] for l in open('/verif/properties.jsonl')]
out=[]
for p in props:
    if p in C: st,th,n=C[p]
    else: st,th,n='partial',[],'not yet proved; see DESIGN.md'
    out.append({"property":p,"status":st,"theorems":th,"note":n})
json.dump({"claims":out},open('/verif/MANIFEST.json','w'),indent=1)
