#!/usr/bin/env python3
"""Regenerate MANIFEST.json from the theorem names in rocq/theories/Prop*.v."""
import glob, json, os, re
root = os.path.dirname(os.path.dirname(os.path.abspath(__file__)))
notes = json.load(open(os.path.join(root, 'tools', 'notes.json')))
ths = {}
for f in sorted(glob.glob(os.path.join(root, 'rocq/theories/Prop*.v'))):
    for m in re.finditer(r'^Theorem (C\d+)_(\w+)', open(f).read(), re.M):
        ths.setdefault(m.group(1), []).append(m.group(1) + '_' + m.group(2))
claims = []
for line in open(os.path.join(root, 'properties.jsonl')):
    i = json.loads(line)['id']
    if i not in ths:
        continue
    status = 'partial' if any(t.endswith('_partial') for t in ths[i]) else 'proved'
    claims.append({'property': i, 'status': status, 'theorems': ths[i],
                   'note': notes.get(i, '')})
json.dump({'claims': claims}, open(os.path.join(root, 'MANIFEST.json'), 'w'), indent=1)
open(os.path.join(root, 'MANIFEST.json'), 'a').write('\n')
print(len(claims), 'claims', sum(len(v) for v in ths.values()), 'theorems')
