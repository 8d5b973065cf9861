#!/usr/bin/env python3
"""Regenerates MANIFEST.json from the theorem names in rocq/theories/Prop*.v
(theorem CNN_... belongs to property CNN) and the notes below."""
import json, re, glob, os
root = os.path.dirname(os.path.dirname(os.path.abspath(__file__)))
notes = json.load(open(os.path.join(root, 'tools', 'notes.json')))
thms = {}
for f in sorted(glob.glob(os.path.join(root, 'rocq/theories/Prop*.v'))):
    for m in re.finditer(r'^Theorem\s+(C(\d\d\d?)_\w+)', open(f).read(), re.M):
        thms.setdefault('C' + m.group(2), []).append(m.group(1))
claims = []
for l in open(os.path.join(root, 'properties.jsonl')):
    i = json.loads(l)['id']
    t = thms.get(i, [])
    n = notes.get(i, '')
    if t:
        st = 'partial' if any(x.endswith('_refuted') or x.endswith('_partial') for x in t) else 'proved'
        claims.append({'property': i, 'status': st, 'theorems': t, 'note': n})
    elif n.startswith('NA:'):
        claims.append({'property': i, 'status': 'not_applicable', 'theorems': [], 'note': n[3:].strip()})
    else:
        print('no theorem for', i)
json.dump({'claims': claims}, open(os.path.join(root, 'MANIFEST.json'), 'w'), indent=1)
print(len(claims), 'claims')
