#!/usr/bin/env python3
"""Writes MANIFEST.json.  For each property: status, theorems (collected by name
prefix from the Props*.v files), note."""
import json, re, glob, os
root = os.path.join(os.path.dirname(__file__), '..')
thms = []
for f in sorted(glob.glob(os.path.join(root, 'rocq/theories/Props*.v'))):
    thms += re.findall(r'^Theorem (C\d\d\w*)', open(f).read(), re.M)
ids = [json.loads(l)['id'] for l in open(os.path.join(root, 'properties.jsonl'))]
notes = json.load(open(os.path.join(root, 'tools/notes.json')))
claims = []
for i in ids:
    t = [x for x in thms if x.startswith(i + '_')]
    n = notes.get(i, {})
    if not t:
        continue
    claims.append({'property': i, 'status': n.get('status', 'proved'), 'theorems': t, 'note': n.get('note', '')})
json.dump({'claims': claims}, open(os.path.join(root, 'MANIFEST.json'), 'w'), indent=1)
print(len(claims), 'claims;', 'missing:', [i for i in ids if not any(c['property'] == i for c in claims)])
