#!/usr/bin/env python3
"""Regenerates rocq/_CoqProject and MANIFEST.json from the theory files and tools/status.json."""
import json, os, re
root = os.path.dirname(os.path.dirname(os.path.abspath(__file__)))
th = os.path.join(root, 'rocq', 'theories')
files = []
for d in ('Model', 'Spec', 'Proofs', 'Props'):
    for f in sorted(os.listdir(os.path.join(th, d))):
        if f.endswith('.v'):
            files.append('theories/%s/%s' % (d, f))
open(os.path.join(root, 'rocq', '_CoqProject'), 'w').write('-Q theories Verif\n' + '\n'.join(files) + '\n')
status = json.load(open(os.path.join(root, 'tools', 'status.json')))
byprop = {}
for f in files:
    if '/Props/' not in f:
        continue
    mod = 'Verif.' + f[len('theories/'):-2].replace('/', '.')
    txt = open(os.path.join(root, 'rocq', f)).read()
    for m in re.finditer(r'^(?:Theorem|Corollary)\s+((C\d+)_\w+)', txt, re.M):
        byprop.setdefault(m.group(2), []).append(mod + '.' + m.group(1))
claims = []
for line in open(os.path.join(root, 'properties.jsonl')):
    p = json.loads(line)['id']
    th_ = byprop.get(p, [])
    st = status.get(p, {})
    if not th_ and st.get('status') != 'not_applicable':
        continue
    claims.append({'property': p, 'status': st.get('status', 'proved'), 'theorems': th_, 'note': st.get('note', '')})
json.dump({'claims': claims}, open(os.path.join(root, 'MANIFEST.json'), 'w'), indent=1)
print(len(claims), 'claims;', sum(len(c['theorems']) for c in claims), 'theorems; missing:',
      [p for p in (json.loads(l)['id'] for l in open(os.path.join(root, 'properties.jsonl'))) if p not in [c['property'] for c in claims]])
