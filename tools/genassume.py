#!/usr/bin/env python3
"""Writes ASSUMPTIONS.md: what Print Assumptions says for every property theorem.
Recompiles each Props_*.v to a scratch output (the rest must be built)."""
import subprocess, glob, os, re, tempfile
here = os.path.dirname(os.path.abspath(__file__))
rocq = os.path.join(here, '..', 'rocq')
groups = {}
for f in sorted(glob.glob(os.path.join(rocq, 'theories', 'Props_*.v'))):
    names = re.findall(r'^Print Assumptions (\w+)\.', open(f).read(), re.M)
    with tempfile.TemporaryDirectory() as t:
        g = os.path.join(t, os.path.basename(f))
        open(g, 'w').write(open(f).read())
        out = subprocess.run(['coqc', '-Q', os.path.join(rocq, 'theories'), 'Verif', g], capture_output=True, text=True, check=True).stdout
    blocks = re.split(r'(?m)^(?=Closed under the global context|Axioms:)', out)[1:]
    assert len(blocks) == len(names), (f, len(blocks), len(names))
    for n, b in zip(names, blocks):
        ax = tuple(sorted(set(re.findall(r'(?m)^([A-Za-z_][\w.]*)(?=\s*:|\s*$)', b)) - {'Axioms', 'Closed'})) if b.startswith('Axioms') else ()
        groups.setdefault(ax, []).append(n)
with open(os.path.join(here, '..', 'ASSUMPTIONS.md'), 'w') as o:
    o.write('# Print Assumptions of every property theorem\n\nGenerated by tools/genassume.py.\n')
    for ax, ns in sorted(groups.items(), key=lambda p: len(p[0])):
        o.write('\n## ' + (', '.join(ax) if ax else 'Closed under the global context') + f'\n\n{len(ns)} theorems: ' + ', '.join(sorted(ns)) + '\n')
print({k: len(v) for k, v in groups.items()})
