#!/usr/bin/env python3
"""Append mutation results (mutate.py output) to seeded/LOG.jsonl.
usage: addlog.py results.log [claims.json]   claims.json: {id: {"claim":..., "tightened":[...], "note":...}}"""
import json, sys
over = json.load(open(sys.argv[2])) if len(sys.argv) > 2 else {}
out = open('/verif/seeded/LOG.jsonl', 'a')
for l in open(sys.argv[1]):
    try: d = json.loads(l)
    except ValueError: continue
    o = over.get(d['id'], {})
    r = {'id': d['id'], 'definition': f"{d['definition']} ({d['file']})",
         'edit': f"{d['why']}: `{d['old'].strip()}` -> `{d['new'].strip()}`",
         'claim': o.get('claim', d['claim']), 'theorems_failed': d['failed'],
         'proofs_broken': d['broken'], 'theorems_tightened': o.get('tightened', [])}
    if 'note' in o: r['note'] = o['note']
    out.write(json.dumps(r) + '\n')
