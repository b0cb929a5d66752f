#!/usr/bin/env python3
"""Write MANIFEST.json from the theorem names in rocq/theories/Prop_*.v (Cnn_...) and tools/notes.json."""
import glob, json, re, os
root = os.path.dirname(os.path.dirname(os.path.abspath(__file__)))
thms = {}
for f in sorted(glob.glob(root + '/rocq/theories/Prop_*.v')):
    for name in re.findall(r'^Theorem\s+(C\d\d+_\w+)', open(f).read(), re.M):
        thms.setdefault(name.split('_')[0], []).append(name)
notes = json.load(open(root + '/tools/notes.json'))
claims = []
for line in open(root + '/properties.jsonl'):
    p = json.loads(line)['id']
    n = notes.get(p, {})
    t = thms.get(p, [])
    status = n.get('status', 'proved' if t else 'partial')
    if not t and status != 'not_applicable':
        continue
    claims.append({'property': p, 'status': status, 'theorems': t, 'note': n.get('note', '')})
json.dump({'claims': claims}, open(root + '/MANIFEST.json', 'w'), indent=1)
print(len(claims), 'claims', sum(len(c['theorems']) for c in claims), 'theorems')
