#!/usr/bin/env python3
"""Run Print Assumptions for every theorem named in MANIFEST.json (after a build)
and print the theorems that are not closed, then a count."""
import json, os, re, subprocess, tempfile
root = os.path.dirname(os.path.dirname(os.path.abspath(__file__)))
names = [t for c in json.load(open(root + '/MANIFEST.json'))['claims'] for t in c['theorems']]
where = {}
for f in sorted(os.listdir(root + '/rocq/theories')):
    if f.endswith('.v'):
        for t in re.findall(r'^(?:Theorem|Corollary|Lemma) (C\d\d+_\w+)', open(root + '/rocq/theories/' + f).read(), re.M):
            where[t] = f[:-2]
mods = sorted({where[t] for t in names})
src = ''.join('From Verif Require %s.\n' % m for m in mods)
for t in names:
    src += 'Print Assumptions %s.%s.\n' % (where[t], t)
with tempfile.TemporaryDirectory() as d:
    open(d + '/a.v', 'w').write(src)
    out = subprocess.run(['coqc', '-Q', root + '/rocq/theories', 'Verif', d + '/a.v'], capture_output=True, text=True)
if out.returncode:
    print(out.stderr)
parts = re.findall(r'Closed under the global context|Axioms:\n(?:.+\n?)*?(?=Closed|Axioms:|\Z)', out.stdout)
assert len(parts) == len(names), (len(parts), len(names))
bad = 0
for t, p in zip(names, parts):
    if not p.startswith('Closed'):
        bad += 1
        print(t, p)
print(len(names), 'theorems,', bad, 'with assumptions')
