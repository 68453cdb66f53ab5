#!/usr/bin/env python3
"""Regenerate AXIOMS.md: what Print Assumptions lists for each theorem of Prop*.v
(needs a finished build)."""
import glob, os, re, subprocess
root = os.path.dirname(os.path.dirname(os.path.abspath(__file__)))
th = os.path.join(root, 'rocq', 'theories')
short = {}
rows = []
for f in sorted(glob.glob(os.path.join(th, 'Prop*.v'))):
    names = re.findall(r'^Print Assumptions (\w+)', open(f).read(), re.M)
    out = subprocess.run(['coqc', '-Q', th, 'Verif', f, '-o', '/tmp/' + os.path.basename(f) + 'o'],
                         capture_output=True, text=True, cwd='/tmp').stdout
    blocks = re.split(r'^(?=Axioms:|Closed under)', out, flags=re.M)[1:]
    assert len(blocks) == len(names), (f, len(blocks), len(names))
    for n, b in zip(names, blocks):
        axs = re.findall(r'^([\w.]+)(?: :|\s*$)', b, re.M)
        axs = [a for a in axs if a != 'Axioms']
        rows.append((os.path.basename(f), n, sorted(set(axs))))
allax = sorted({a for _, _, axs in rows for a in axs})
code = {a: chr(ord('A') + i) for i, a in enumerate(allax)}
with open(os.path.join(root, 'AXIOMS.md'), 'w') as o:
    o.write('# What Print Assumptions lists for each theorem\n\n')
    o.write('Generated by `tools/axioms.py`.  All are axioms of the Coq standard library.\n\n')
    for a in allax:
        o.write(f'* {code[a]} = `{a}`\n')
    o.write('\n| file | theorem | axioms |\n|---|---|---|\n')
    for f, n, axs in rows:
        o.write(f'| {f} | {n} | {" ".join(code[a] for a in axs) or "none"} |\n')
print(len(rows), 'theorems', code)
