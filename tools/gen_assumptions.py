#!/usr/bin/env python3
"""Rewrite section 6 of DESIGN.md from Print Assumptions of every theorem in MANIFEST.json.
Needs a built /verif/rocq; the scratch file is compiled outside it."""
import collections, json, os, re, subprocess, tempfile
root = os.path.dirname(os.path.dirname(os.path.abspath(__file__)))
claims = json.load(open(root + '/MANIFEST.json'))['claims']
where = {}
for f in sorted(os.listdir(root + '/rocq/theories')):
    if f.endswith('.v'):
        for t in re.findall(r"^\s*(?:Theorem|Lemma)\s+([\w']+)", open(root + '/rocq/theories/' + f).read(), re.M): where[t] = f[:-2]
thms = []
for c in claims:
    for t in c['theorems']:
        if t not in thms: thms.append(t)
with tempfile.TemporaryDirectory() as d:
    s = 'From Verif Require %s.\n' % ' '.join(sorted(set(where[t] for t in thms)))
    for t in thms: s += 'Print Assumptions Verif.%s.%s.\n' % (where[t], t)
    open(d + '/Asm.v', 'w').write(s)
    out = subprocess.check_output(['coqc', '-Q', root + '/rocq/theories', 'Verif', d + '/Asm.v'], text=True)
blocks = re.split(r'^(?=Closed under|Axioms:)', out, flags=re.M)[1:]
assert len(blocks) == len(thms), (len(blocks), len(thms))
groups = collections.OrderedDict()
for t, b in zip(thms, blocks):
    ax = tuple(sorted(re.findall(r'^([\w.]+)(?: *:|$)', b, re.M))) if b.startswith('Axioms') else ()
    ax = tuple(a for a in ax if a != 'Axioms')
    groups.setdefault(ax, []).append(t)
L = ['## 6. `Print Assumptions`, theorem by theorem', '', '(Generated by `tools/gen_assumptions.py`.)', '']
for ax in sorted(groups, key=len):
    L.append('* ' + ('**Closed under the global context**' if not ax else ', '.join('`%s`' % a for a in ax)) + ' (%d theorems): ' % len(groups[ax])
             + ', '.join(groups[ax]) + '.')
    L.append('')
p = root + '/DESIGN.md'
t = open(p).read()
i = t.find('## 6. ')
t = (t if i < 0 else t[:i]).rstrip() + '\n\n' + '\n'.join(L).rstrip() + '\n'
open(p, 'w').write(t)
for ax in groups: print(len(groups[ax]), ax)
