#!/usr/bin/env python3
"""Regenerate MANIFEST.json from the theorem names Cnn_... in rocq/theories/Prop*.v and tools/notes.json."""
import json, re, glob, os
root = os.path.dirname(os.path.dirname(os.path.abspath(__file__)))
thms = {}
for f in sorted(glob.glob(root + '/rocq/theories/Prop*.v')):
    s = open(f).read()
    for m in re.finditer(r'^Theorem\s+(C\d\d+)(_\w+)', s, re.M):
        thms.setdefault(m.group(1), []).append(m.group(1) + m.group(2))
notes = json.load(open(root + '/tools/notes.json'))
claims = []
for l in open(root + '/properties.jsonl'):
    d = json.loads(l)
    i = d['id']
    t = thms.get(i, [])
    n = notes.get(i, {})
    st = n.get('status', 'proved' if t and not any(x.endswith('_partial') for x in t) else 'partial')
    claims.append({'property': i, 'status': st, 'theorems': t, 'note': n.get('note', '' if t else 'not yet proved')})
json.dump({'claims': claims}, open(root + '/MANIFEST.json', 'w'), indent=1)
for c in claims: print(c['property'], c['status'], len(c['theorems']))
