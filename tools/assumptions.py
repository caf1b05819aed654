#!/usr/bin/env python3
"""Print Assumptions for every theorem of MANIFEST.json (needs a built rocq/).
Writes ASSUMPTIONS.md: the theorems grouped by what they rest on."""
import json, os, re, subprocess, sys
H = os.path.dirname(os.path.abspath(__file__)); V = os.path.join(H, '..'); T = os.path.join(V, 'rocq/theories')
where = {}
for f in sorted(os.listdir(T)):
    if f.endswith('.v'):
        for m in re.finditer(r"^\s*(?:Theorem|Lemma|Corollary)\s+([\w']+)", open(os.path.join(T, f)).read(), re.M):
            where.setdefault(m.group(1), []).append(f[:-2])
names = []
for c in json.load(open(os.path.join(V, 'MANIFEST.json')))['claims']:
    for t in c['theorems']:
        if t not in names: names.append(t)
for t in names: assert len(where.get(t, [])) == 1, (t, where.get(t))
mods = sorted({where[t][0] for t in names})
src = 'From Verif Require %s.\n' % ' '.join(mods)
for t in names: src += 'Eval compute in tt.\nPrint Assumptions Verif.%s.%s.\n' % (where[t][0], t)
open('/tmp/pa.v', 'w').write(src)
out = subprocess.run('coqc -q -R theories Verif /tmp/pa.v', shell=True, cwd=os.path.join(V, 'rocq'), stdout=subprocess.PIPE, stderr=subprocess.STDOUT).stdout.decode()
parts = out.split('     = tt\n     : unit\n')[1:]
assert len(parts) == len(names), (len(parts), len(names), out[:500])
groups = {}
for t, p in zip(names, parts):
    ax = () if 'Closed under the global context' in p else tuple(sorted(x for x in re.findall(r'^([\w.\']+)\s*:', p, re.M) or re.findall(r'^([A-Z][\w.\']+)$', p, re.M)))
    ax = tuple(x for x in ax if x != 'Axioms')
    groups.setdefault(ax, []).append(t)
md = '# What `Print Assumptions` lists for each claimed theorem\n\nGenerated by tools/assumptions.py.\n'
for ax, ts in sorted(groups.items(), key=lambda x: len(x[0])):
    md += '\n## %s\n\n' % ('Closed under the global context (no axiom): %d theorems' % len(ts) if not ax else
        '%d theorem(s) resting on: ' % len(ts) + ', '.join('`%s`' % a for a in ax))
    md += ', '.join('`%s`' % t for t in ts) + '\n'
open(os.path.join(V, 'ASSUMPTIONS.md'), 'w').write(md)
for ax, ts in groups.items(): print(len(ts), ax, ts[:6] if ax else '')
