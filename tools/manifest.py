#!/usr/bin/env python3
"""Write MANIFEST.json: theorem names are collected from the *Props.v files,
status and note per property come from tools/status.json."""
import json, re, glob, os
root = os.path.dirname(os.path.dirname(os.path.abspath(__file__)))
names = {}
for f in sorted(glob.glob(root + '/rocq/theories/**/*Props.v', recursive=True)):
    for m in re.finditer(r'^Theorem\s+((C\d\d)_\w+)', open(f).read(), re.M):
        names.setdefault(m.group(2), []).append(m.group(1))
st = json.load(open(root + '/tools/status.json'))
claims = []
for line in open(root + '/properties.jsonl'):
    p = json.loads(line)['id']
    s = st.get(p)
    if p not in names and s is None:
        continue
    s = s or {}
    claims.append({"property": p, "status": s.get("status", "proved"),
                   "theorems": names.get(p, []), "note": s.get("note", "")})
json.dump({"claims": claims}, open(root + '/MANIFEST.json', 'w'), indent=1)
print(len(claims), "claims", sum(len(c["theorems"]) for c in claims), "theorems")
