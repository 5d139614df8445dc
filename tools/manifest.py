#!/usr/bin/env python3
"""Regenerate MANIFEST.json from the theorem names in rocq/theories/*Props*.v.
Theorem names start with the property id (C01_...).  Status: 'partial' for
properties listed in notes.json with "partial": true, else 'proved'."""
import json, re, glob, os
root = os.path.dirname(os.path.dirname(os.path.abspath(__file__)))
notes = json.load(open(os.path.join(root, 'tools', 'notes.json')))
ids = [json.loads(l)['id'] for l in open(os.path.join(root, 'properties.jsonl')) if l.strip()]
thms = {i: [] for i in ids}
for f in sorted(glob.glob(os.path.join(root, 'rocq/theories/*Props*.v'))):
    for m in re.finditer(r'^Theorem (C\d+)(_\w+)', open(f).read(), re.M):
        thms[m.group(1)].append(m.group(1) + m.group(2))
claims = []
for i in ids:
    n = notes.get(i, {})
    if not thms[i] and n.get('status') is None:
        continue
    st = n.get('status') or 'proved'
    claims.append({'property': i, 'status': st, 'theorems': thms[i], 'note': n.get('note', '')})
json.dump({'claims': claims}, open(os.path.join(root, 'MANIFEST.json'), 'w'), indent=1)
print(len(claims), 'claims;', 'missing:', [i for i in ids if not thms[i]])
