#!/usr/bin/env python3
"""Generate a Props file: each theorem's statement is the type printed by Coq
for the lemma that proves it.
usage: genprops.py SPEC.py   (run anywhere; SPEC defines OUT, HEADER, ITEMS)
ITEMS is a list of (theorem, lemma, comment) triples or verbatim strings."""
import subprocess, sys, os, re, tempfile
TH = os.path.join(os.path.dirname(os.path.dirname(os.path.abspath(__file__))), 'rocq', 'theories')
ns = {}
exec(open(sys.argv[1]).read(), ns)
imports = ns['HEADER'].split('*)', 1)[1] if ns['HEADER'].lstrip().startswith('(**') else ns['HEADER']
src = imports + '\nSet Printing Width 130.\nSet Printing Depth 10000.\n'
names = [t[1] for t in ns['ITEMS'] if not isinstance(t, str)]
for n in names:
    src += 'Check @%s.\n' % n
tmp = tempfile.mkdtemp()
open(tmp + '/chk.v', 'w').write(src)
r = subprocess.run(['coqc', '-Q', TH, 'Verif', tmp + '/chk.v'], capture_output=True, text=True)
if r.returncode:
    sys.exit(r.stdout + r.stderr)
types = {}
cur = None
for line in r.stdout.split('\n'):
    m = re.match(r'^@?(\w+)\s*$', line)
    if m and m.group(1) in names:
        cur = m.group(1); types[cur] = []
    elif cur is not None and line.strip():
        types[cur].append(re.sub(r'^ {5}(: )?', '', line) if line.startswith('     : ') else line[7:] if line.startswith('       ') else line)
out = [ns['HEADER'].strip() + '\n']
for t in ns['ITEMS']:
    if isinstance(t, str):
        out.append(t.strip() + '\n'); continue
    thm, lem, com = t[:3]
    body = '\n  '.join(types[lem])
    if len(t) == 4:  # statement as written in the file t[3]: Coq does not print the casts it needs
        body = re.search(r'Lemma %s :\s(.*?)\.\nProof' % lem, open(os.path.join(TH, t[3])).read(), re.S).group(1)
    for a, b in ns.get('SUBST', {}).get(thm, []):  # implicit arguments Coq does not print
        assert a in body, (thm, a)
        body = body.replace(a, b)
    out.append(('(** %s *)\n' % com if com else '') + '%s %s :\n  %s.\nProof. exact (@%s). Qed.\n' % ('Example' if thm.endswith('_instance') else 'Theorem', thm, body, lem)
               + ('' if thm.endswith('_instance') else 'Print Assumptions %s.\n' % thm))
open(os.path.join(TH, ns['OUT']), 'w').write('\n'.join(out))
