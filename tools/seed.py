#!/usr/bin/env python3
"""Seeded-bug runner.

usage: seed.py MUTATIONS.json OUT.jsonl [make -j]

Each mutation is {"file", "definition", "old", "new", "claim", "targets"}.
A scratch copy of the (already built) development is edited, rebuilt, and
whenever a proof script fails its lemma is replaced by an Admitted one so that
the rest can be checked.  A theorem of a Props file "failed" when its
Print Assumptions then lists one of those lemmas (or when it fails itself).
"""
import json, os, re, shutil, subprocess, sys

SRC = os.environ.get('SEED_SRC', '/verif/rocq')
OUT = sys.argv[2]
J = sys.argv[3] if len(sys.argv) > 3 else '2'
WORK = '/tmp/seed/' + os.path.basename(sys.argv[1]).replace('.json', '')
HEAD = re.compile(r'^\s*(?:Local |Global )?(Lemma|Theorem|Corollary|Example|Fact|Remark|Definition|Instance|Program Definition)\s+([A-Za-z0-9_\']+)')

def sh(cmd, **kw):
    return subprocess.run(cmd, shell=True, stdout=subprocess.PIPE, stderr=subprocess.STDOUT, text=True, **kw).stdout

def admit(path, line):
    """replace the proof containing [line] (1-based) by Admitted; return the lemma name"""
    L = open(path).read().split('\n')
    i = line - 1
    while i >= 0 and not HEAD.match(L[i]):
        i -= 1
    if i < 0:
        return None
    name = HEAD.match(L[i]).group(2)
    k = i
    while k < len(L) and not re.search(r'\bProof\b', L[k]):
        k += 1
    e = k
    while e < len(L) and not re.search(r'\b(Qed|Defined|Admitted)\.', L[e]):
        e += 1
    if e >= len(L) or 'Admitted.' in L[e]:
        return None
    if k > line:      # error in the statement itself
        return None
    pre = L[k][:L[k].index('Proof')]
    L[k:e+1] = [pre + 'Proof. Admitted.'] + [''] * (e - k)
    open(path, 'w').write('\n'.join(L))
    return name

def run(m):
    shutil.rmtree(WORK, ignore_errors=True)
    shutil.copytree(SRC, WORK)
    f = WORK + '/theories/' + m['file']
    s = open(f).read()
    if s.count(m['old']) != 1:
        return dict(m, error='pattern occurs %d times' % s.count(m['old']))
    open(f, 'w').write(s.replace(m['old'], m['new']))
    tg = ' '.join('theories/%s.vo' % t for t in m['targets'])
    admitted, stuck = [], []
    for it in range(60):
        out = sh('cd %s && timeout 3000 make -k -j%s %s' % (WORK, J, tg))
        errs = re.findall(r'File "\./(theories/\w+\.v)", line (\d+), characters[^\n]*\nError', out) or \
               re.findall(r'File "\./(theories/\w+\.v)", line (\d+), characters', out) if 'Error' in out else []
        errs = list(dict.fromkeys(errs))
        if not errs:
            break
        prog = False
        for p, ln in errs:
            n = admit(WORK + '/' + p, int(ln))
            if n:
                admitted.append(os.path.basename(p) + ':' + n); prog = True
            else:
                stuck.append('%s:%s' % (p, ln))
        if not prog:
            break
    # which property theorems depend on the admitted lemmas
    failed = set()
    names = set(a.split(':')[1] for a in admitted)
    for t in m['targets']:
        if not t.startswith('Props'): continue
        out = sh('cd %s && coqc -Q theories Verif theories/%s.v 2>&1' % (WORK, t))
        src = open(WORK + '/theories/%s.v' % t).read()
        ths = re.findall(r'^Print Assumptions (\w+)\.', src, re.M)
        blocks = re.split(r'^(?=Closed under the global context|Axioms:)', out, flags=re.M)[1:]
        if len(blocks) != len(ths):
            stuck.append('%s: %d blocks for %d theorems' % (t, len(blocks), len(ths)))
        for th, b in zip(ths, blocks):
            if any(re.search(r'^(\w+\.)*%s\s*:' % re.escape(n), b, re.M) or re.search(r'^(\w+\.)*%s$' % re.escape(n), b, re.M) for n in names):
                failed.add(th)
        for n in names:
            if n in ths: failed.add(n)
    return {'definition': m['definition'], 'file': m['file'], 'edit': m['old'] + '  ==>  ' + m['new'],
            'claim': m['claim'], 'failing_lemmas': admitted, 'failed': sorted(failed),
            'unresolved': stuck, 'tightened': []}

for m in json.load(open(sys.argv[1])):
    r = run(m)
    print(r['definition'] if 'definition' in r else r, len(r.get('failed', [])), r.get('error', ''), r.get('unresolved', ''), flush=True)
    with open(OUT, 'a') as g:
        g.write(json.dumps(r) + '\n')
