#!/usr/bin/env python3
"""Regenerate MANIFEST.json: theorem names cNN_* are collected from the Props
files, status and notes from the table below."""
import glob, json, os, re
root = os.path.dirname(os.path.dirname(os.path.abspath(__file__)))
thms = {}
for f in sorted(glob.glob(root + '/rocq/theories/Props*.v')):
    for m in re.finditer(r'^Theorem (c(\d+)_\w+)', open(f).read(), re.M):
        thms.setdefault('C' + m.group(2), []).append(m.group(1))
notes = json.load(open(root + '/tools/status.json'))
claims = []
for line in open(root + '/properties.jsonl'):
    p = json.loads(line)['id']
    t = thms.get(p, [])
    st, note = notes.get(p, ['partial' if t else 'not_applicable', '' if t else 'not modelled yet'])
    if t:
        claims.append(dict(property=p, status=st, theorems=t, note=note))
    else:
        claims.append(dict(property=p, status='not_applicable', theorems=[], note=note or 'not modelled yet'))
json.dump(dict(claims=claims), open(root + '/MANIFEST.json', 'w'), indent=1)
print(sum(1 for c in claims if c['status'] == 'proved'), 'proved',
      sum(1 for c in claims if c['status'] == 'partial'), 'partial',
      sum(1 for c in claims if c['status'] == 'not_applicable'), 'n/a')
