#!/usr/bin/env python3
"""Regenerate MANIFEST.json from the theorem names in rocq/theories/Props*.v and notes.json."""
import glob, json, os, re
root = os.path.dirname(os.path.dirname(os.path.abspath(__file__)))
ids = [json.loads(l)['id'] for l in open(root + '/properties.jsonl')]
notes = json.load(open(root + '/tools/notes.json'))
thms = {i: [] for i in ids}
for f in sorted(glob.glob(root + '/rocq/theories/Props*.v')):
    for m in re.finditer(r'^Theorem ((C\d\d+)_\w+)', open(f).read(), re.M):
        thms[m.group(2)].append(m.group(1))
claims = []
for i in ids:
    n = notes.get(i, {})
    if not thms[i]:
        status = n.get('status', 'partial')
    else:
        status = n.get('status', 'partial' if any(t.endswith('_partial') for t in thms[i]) else 'proved')
    claims.append({'property': i, 'status': status, 'theorems': thms[i],
                   'note': n.get('note', '' if thms[i] else 'not yet modelled')})
json.dump({'claims': claims}, open(root + '/MANIFEST.json', 'w'), indent=1)
print(sum(1 for c in claims if c['theorems']), 'of', len(claims))
