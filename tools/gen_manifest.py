#!/usr/bin/env python3
"""Writes MANIFEST.json; checks that every theorem named exists in rocq/theories."""
import json, re, glob, sys
P, Q, NA = "proved", "partial", "not_applicable"
C = {}
def c(pid, status, thms, note=""):
    C[pid] = (status, thms.split(), note)

exec(open('/verif/tools/claims.py').read())

names = set()
for f in glob.glob('/verif/rocq/theories/*.v'):
    for m in re.finditer(r'^\s*(?:Theorem|Lemma|Corollary)\s+([\w\']+)', open(f).read(), re.M):
        names.add(m.group(1))
ids = [json.loads(l)['id'] for l in open('/verif/properties.jsonl')]
out = []
for i in ids:
    if i not in C:
        out.append({"property": i, "status": "partial", "theorems": [], "note": "not yet modelled"}); continue
    s, t, n = C[i]
    for x in t:
        if x not in names: print("MISSING", i, x); 
    out.append({"property": i, "status": s, "theorems": t, "note": n})
for i in C:
    if i not in ids: print("UNKNOWN PROPERTY", i)
json.dump({"claims": out}, open('/verif/MANIFEST.json', 'w'), indent=1)
print(len(out), "claims", sum(1 for o in out if o["status"] == "proved"), "proved")
