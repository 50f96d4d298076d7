#!/usr/bin/env python3
"""Regenerates MANIFEST.json: theorems are collected from rocq/theories/Prop*.v by
their C<nn>_ prefix; status and note per property are below."""
import glob, json, re, os
root = os.path.dirname(os.path.dirname(os.path.abspath(__file__)))
names = {}
for f in sorted(glob.glob(root + '/rocq/theories/Prop*.v')):
    for m in re.finditer(r'^Theorem\s+(C(\d\d)_\w+)', open(f).read(), re.M):
        names.setdefault('C' + m.group(2), []).append(m.group(1))
S = json.load(open(root + '/tools/status.json'))
claims = []
for l in open(root + '/properties.jsonl'):
    p = json.loads(l)['id']
    st, note = S.get(p, [None, ''])
    if p in names and st is None:
        st = 'proved'
    if st is None:
        continue
    claims.append({'property': p, 'status': st, 'theorems': names.get(p, []), 'note': note})
json.dump({'claims': claims}, open(root + '/MANIFEST.json', 'w'), indent=1)
print(len(claims), 'claims,', sum(len(c['theorems']) for c in claims), 'theorems;',
      'missing', [json.loads(l)['id'] for l in open(root + '/properties.jsonl')
                  if json.loads(l)['id'] not in [c['property'] for c in claims]])
