#!/usr/bin/env python3
"""Writes seeded/LOG.jsonl from the outputs of mutate.py and the remarks in tools/mutnotes.json (name -> {"tightened": [...], "note": "..."})."""
import json, sys, os
here = os.path.dirname(os.path.abspath(__file__))
notes = json.load(open(here + '/mutnotes.json'))
out = open(here + '/../seeded/LOG.jsonl', 'w'); n = 0
for f in sys.argv[1:]:
    for l in open(f):
        d = json.loads(l)
        if d.get('error'): continue
        x = notes.get(d['name'], {})
        e = {'id': d['name'], 'definition': d['file'] + '.' + d['definition'], 'edit': d['edit'], 'replaced': d['old'], 'by': d['new'], 'claim': d['claim'],
             'first_broken_lemmas': d['broken'][:3], 'theorems_failed': d['failed'], 'theorems_tightened': x.get('tightened', [])}
        if x.get('note'): e['note'] = x['note']
        if d.get('notes') and d['notes']: e['harness'] = d['notes']
        out.write(json.dumps(e, ensure_ascii=False) + '\n'); n += 1
print(n)
