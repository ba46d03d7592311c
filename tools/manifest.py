#!/usr/bin/env python3
"""Generate MANIFEST.json from the theorem names Cxx_... in rocq/theories/Prop*.v."""
import json, re, glob, os
root = os.path.dirname(os.path.dirname(os.path.abspath(__file__)))
ids = [json.loads(l)['id'] for l in open(root + '/properties.jsonl')]
thms = {i: [] for i in ids}
for f in sorted(glob.glob(root + '/rocq/theories/Prop*.v')):
    for m in re.finditer(r'^\s*(?:Theorem|Corollary)\s+(C\d+)_(\w+)', open(f).read(), re.M):
        thms[m.group(1)].append(m.group(1) + '_' + m.group(2))
notes = json.load(open(root + '/tools/notes.json'))
claims = []
for i in ids:
    n = notes.get(i, {})
    if not thms[i] and n.get('status') != 'not_applicable':
        continue
    st = n.get('status', 'partial' if all(t.endswith('_partial') for t in thms[i]) else 'proved')
    claims.append({'property': i, 'status': st, 'theorems': thms[i], 'note': n.get('note', '')})
json.dump({'claims': claims}, open(root + '/MANIFEST.json', 'w'), indent=1)
print(len(claims), 'claims,', sum(len(t) for t in thms.values()), 'theorems; missing:',
      [i for i in ids if not thms[i]])
