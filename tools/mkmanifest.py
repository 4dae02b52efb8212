#!/usr/bin/env python3
"""Regenerates MANIFEST.json from the theorem names in Properties_*.v and tools/status.json."""
import json, re, glob, os
root = os.path.join(os.path.dirname(os.path.abspath(__file__)), '..')
props = [json.loads(l) for l in open(os.path.join(root, 'properties.jsonl'))]
status = json.load(open(os.path.join(root, 'tools', 'status.json')))
thms = {}
for f in sorted(glob.glob(os.path.join(root, 'rocq/theories/Properties_*.v'))):
    for m in re.finditer(r'^(?:Theorem|Corollary)\s+((C\d\d+)_\w+)', open(f).read(), re.M):
        thms.setdefault(m.group(2), []).append(m.group(1))
claims = []
for p in props:
    i = p['id']
    st = status.get(i, {})
    t = thms.get(i, [])
    if not t and 'status' not in st:
        continue
    s = st.get('status') or ('partial' if any(x.endswith('_partial') for x in t) else 'proved')
    claims.append({'property': i, 'status': s, 'theorems': t, 'note': st.get('note', '')})
json.dump({'claims': claims}, open(os.path.join(root, 'MANIFEST.json'), 'w'), indent=1)
print(len(claims), 'claims;', 'missing', [p['id'] for p in props if p['id'] not in [c['property'] for c in claims]])
