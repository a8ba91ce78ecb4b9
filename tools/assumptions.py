#!/usr/bin/env python3
"""Recompiles each Props*.v (after a build) and writes what Print Assumptions lists for every theorem as a table: ASSUMPTIONS.md."""
import os, re, glob, subprocess, tempfile
root = os.path.join(os.path.dirname(os.path.abspath(__file__)), '..', 'rocq')
rows, empty = [], []
for f in sorted(glob.glob(root + '/theories/Props*.v')):
    src = re.sub(r'\(\*.*?\*\)', '', open(f).read(), flags=re.S)
    names = re.findall(r'^Print Assumptions (\w+)\.', src, flags=re.M)
    with tempfile.TemporaryDirectory() as d:
        o = subprocess.run(['coqc', '-Q', 'theories', 'Verif', '-o', d + '/' + os.path.basename(f) + 'o', f], cwd=root, capture_output=True, text=True)
    assert o.returncode == 0, o.stderr
    blocks = re.split(r'^(?=Axioms:|Closed under the global context)', o.stdout, flags=re.M)[1:]
    assert len(blocks) == len(names), (f, len(blocks), len(names))
    by = {}
    for n, b in zip(names, blocks):
        ax = () if b.startswith('Closed') else tuple(sorted(set(re.findall(r'^([A-Za-z_][\w.\']*)\s*(?=:|$)', b, flags=re.M)) - {'Axioms'}))
        by.setdefault(ax, []).append(n)
    for ax, ns in sorted(by.items()):
        rows.append((os.path.basename(f), ns, ax))
with open(root + '/../ASSUMPTIONS.md', 'w') as out:
    out.write('# What `Print Assumptions` lists for each theorem\n\nGenerated by `tools/assumptions.py`. "closed": no axioms at all.\n\n| file | theorems | axioms |\n|---|---|---|\n')
    for f, ns, ax in rows:
        out.write('| `%s` | %s | %s |\n' % (f, ', '.join(ns), ', '.join('`%s`' % a for a in ax) or 'closed'))
print(len(rows), 'rows', sum(len(ns) for _, ns, _ in rows), 'theorems')
