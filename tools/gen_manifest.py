#!/usr/bin/env python3
"""Writes MANIFEST.json: per property the status, the theorems found in theories/Prop*.v, a note."""
import json, re, glob, os
root = os.path.dirname(os.path.dirname(os.path.abspath(__file__)))
thms = {}
for f in sorted(glob.glob(root + '/rocq/theories/Prop*.v')):
    for m in re.finditer(r'^Theorem\s+((C\d\d)_\w+)', open(f).read(), re.M):
        thms.setdefault(m.group(2), []).append(m.group(1))
notes = json.load(open(root + '/tools/status.json'))
claims = []
for l in open(root + '/properties.jsonl'):
    i = json.loads(l)['id']
    st, note = notes.get(i, ['not_applicable', 'Not modelled yet.'])
    claims.append({'property': i, 'status': st, 'theorems': thms.get(i, []), 'note': note})
json.dump({'claims': claims}, open(root + '/MANIFEST.json', 'w'), indent=1)
print({s: sum(c['status'] == s for c in claims) for s in ('proved', 'partial', 'not_applicable')})
for c in claims:
    if c['status'] != 'not_applicable' and not c['theorems']: print('no theorem', c['property'])
    if c['status'] == 'not_applicable' and c['theorems']: print('status?', c['property'])
