#!/usr/bin/env python3
"""Recompile the Properties files and tabulate what Print Assumptions lists -> ASSUMPTIONS.md"""
import subprocess, re, glob, os
D = os.path.join(os.path.dirname(os.path.abspath(__file__)), '..')
T = D + '/rocq/theories'
rows = []
for f in sorted(glob.glob(T + '/Properties_*.v')):
    names = re.findall(r'^Print Assumptions ([\w\']+)\.', open(f).read(), re.M)
    out = subprocess.run(['coqc', '-R', '.', 'Verif', os.path.basename(f)], cwd=T, stdout=subprocess.PIPE, text=True).stdout
    blocks = re.split(r'(?m)^(?=Closed under|Axioms:)', out)[1:]
    assert len(blocks) == len(names), (f, len(blocks), len(names))
    for n, b in zip(names, blocks):
        ax = [] if b.startswith('Closed') else re.findall(r'^([A-Z][\w.]+)(?= :|$)', b.replace('Axioms:', ''), re.M)
        rows.append((os.path.basename(f), n, ax))
short = {}
kinds = sorted({tuple(sorted(a)) for _, _, a in rows}, key=len)
with open(D + '/ASSUMPTIONS.md', 'w') as o:
    o.write('# Print Assumptions for every property theorem\n\nGenerated by tools/assumptions.py.  Axioms are those of the standard library only.\n\n')
    for i, k in enumerate(kinds):
        o.write('* **%s**: %s\n' % ('ABCDEFGH'[i], ', '.join('`%s`' % a for a in k) or 'closed under the global context'))
    o.write('\n| file | theorem | assumptions |\n|---|---|---|\n')
    for f, n, a in rows: o.write('| %s | %s | %s |\n' % (f, n, 'ABCDEFGH'[kinds.index(tuple(sorted(a)))]))
print(len(rows), kinds)
