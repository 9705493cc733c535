#!/usr/bin/env python3
"""Writes DESIGN.md from design_text.md, design_tail.md, properties.jsonl,
status.json, plan.json and the output of Print Assumptions (run from /verif,
with the development built)."""
import json, re, glob, subprocess, os
T = '/verif/tools/'
props = [json.loads(l) for l in open('/verif/properties.jsonl')]
status = json.load(open(T + 'status.json'))
plan = json.load(open(T + 'plan.json'))
man = {c['property']: c for c in json.load(open('/verif/MANIFEST.json'))['claims']}
ax = {}
for f in sorted(glob.glob('/verif/rocq/theories/Props*.v')):
    out = subprocess.run('cd /verif/rocq && coqc -Q theories Verif -o /tmp/%s.vo %s' % (os.path.basename(f)[:-2], f), shell=True, stdout=subprocess.PIPE, stderr=subprocess.STDOUT, text=True).stdout
    ths = re.findall(r'^Print Assumptions (\w+)\.', open(f).read(), re.M)
    blocks = re.split(r'^(?=Closed under the global context|Axioms:)', out, flags=re.M)[1:]
    assert len(ths) == len(blocks), (f, len(ths), len(blocks), out[-400:])
    for t, b in zip(ths, blocks):
        names = tuple(sorted(re.findall(r'^([A-Z][\w.]*)\s*(?::|$)', b.replace('Axioms:', ''), re.M)))
        if names: ax.setdefault(names, []).append(t)
rows = ['## 3. Properties', '', '| id | property | model and proof | status |', '|----|----------|-----------------|--------|']
for p in props:
    i = p['id']
    rows.append('| %s | %s | %s | %s (%d theorems). %s |' % (i, p['title'].replace('|', '\\|'), plan.get(i, ''), status[i][0], len(man[i]['theorems']), status[i][1].replace('|', '\\|')))
al = []
for names, ts in sorted(ax.items()):
    al.append('* ' + ', '.join('`%s`' % n for n in names) + ': ' + ', '.join('`%s`' % t for t in sorted(ts)) + '.')
s = open(T + 'design_text.md').read().replace('@FILES@\n', '') + '\n'.join(rows) + '\n\n' + open(T + 'design_tail.md').read().replace('@AXIOMS@', '\n'.join(al))
open('/verif/DESIGN.md', 'w').write(s)
print(len(props), 'properties;', sum(len(v) for v in ax.values()), 'theorems with axioms;', [len(k) for k in ax])
