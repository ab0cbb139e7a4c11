#!/usr/bin/env python3
"""Regenerate MANIFEST.json: theorem names are collected from Prop*.v, status
and notes from the table below."""
import json, re, glob, os
root = os.path.dirname(os.path.dirname(os.path.abspath(__file__)))
names = {}
for f in sorted(glob.glob(root + '/rocq/theories/Prop*.v')):
    for m in re.finditer(r'^Theorem (C\d\d\w*)', open(f).read(), re.M):
        names.setdefault(m.group(1).split('_')[0], []).append(m.group(1))
notes = json.load(open(root + '/tools/notes.json'))
claims = []
for l in open(root + '/properties.jsonl'):
    pid = json.loads(l)['id']
    st, note = notes.get(pid, ['partial', 'not yet modelled'])
    th = names.get(pid, [])
    if not th and st != 'not_applicable':
        continue
    claims.append({'property': pid, 'status': st, 'theorems': th, 'note': note})
json.dump({'claims': claims}, open(root + '/MANIFEST.json', 'w'), indent=1)
print(len(claims), 'claims', sum(len(c['theorems']) for c in claims), 'theorems')
missing = [p for p in names if p not in notes]
if missing: print('no note for', missing)
