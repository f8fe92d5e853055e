#!/usr/bin/env python3
"""Collect the theorems named Cnn_... in rocq/theories/Prop*.v into MANIFEST.json.
Status and note of each property come from tools/notes.json."""
import re, json, glob, os
root = os.path.dirname(os.path.dirname(os.path.abspath(__file__)))
thms = {}
for f in sorted(glob.glob(root + '/rocq/theories/Prop*.v')):
    for m in re.finditer(r'^Theorem\s+(C\d+)(_\w+)', open(f).read(), re.M):
        thms.setdefault(m.group(1), []).append(m.group(1) + m.group(2))
notes = json.load(open(root + '/tools/notes.json'))
props = [json.loads(l)['id'] for l in open(root + '/properties.jsonl') if l.strip()]
claims = []
for c in props:
    if c not in thms and c not in notes:
        continue
    n = notes.get(c, {})
    st = n.get('status')
    if st is None:
        t = thms[c]
        st = 'partial' if any(x.endswith('_partial') or x.endswith('_refuted') for x in t) else 'proved'
    claims.append({'property': c, 'status': st, 'theorems': thms.get(c, []), 'note': n.get('note', '')})
for c in thms:
    assert c in props, c
json.dump({'claims': claims}, open(root + '/MANIFEST.json', 'w'), indent=1, ensure_ascii=False)
print(len(claims), 'claims,', sum(len(x['theorems']) for x in claims), 'theorems,', [x['property'] for x in claims if x['status'] != 'proved'])
print('missing', [c for c in props if c not in [x['property'] for x in claims]])
