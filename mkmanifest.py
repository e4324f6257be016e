#!/usr/bin/env python3
"""Writes MANIFEST.json from the property files: theorem names start with the property id."""
import re, json, glob, os
here = os.path.dirname(os.path.abspath(__file__))
props = [json.loads(l) for l in open(here + '/properties.jsonl')]
status = json.load(open(here + '/status.json'))
thms = {}
for f in sorted(glob.glob(here + '/rocq/theories/Prop*.v')):
    for m in re.finditer(r'^Theorem (C\d\d+\w*)', open(f).read(), re.M):
        thms.setdefault(m.group(1).split('_')[0], []).append(m.group(1))
claims = []
for p in props:
    s = status.get(p['id'], {})
    claims.append({"property": p['id'], "status": s.get('status', 'partial'), "theorems": thms.get(p['id'], []), "note": s.get('note', '')})
json.dump({"claims": claims}, open(here + '/MANIFEST.json', 'w'), indent=1)
for c in claims:
    print(c['property'], c['status'], len(c['theorems']))
