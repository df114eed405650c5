#!/usr/bin/env python3
"""Writes MANIFEST.json from the table below."""
import json, re, glob
C = {}
def c(pid, status, theorems, note=""):
    C[pid] = dict(property=pid, status=status, theorems=theorems, note=note)

exec(open('/verif/tools/claims.py').read())

allthms = set()
for f in glob.glob('/verif/rocq/theories/*.v'):
    allthms |= set(re.findall(r'^(?:Theorem|Lemma)\s+([A-Za-z0-9_\']+)', open(f).read(), flags=re.M))
for x in C.values():
    for t in x['theorems']:
        assert t in allthms, (x['property'], t)
json.dump({"claims": [C[k] for k in sorted(C)]}, open('/verif/MANIFEST.json','w'), indent=1)
print(len(C))
