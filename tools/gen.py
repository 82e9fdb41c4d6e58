#!/usr/bin/env python3
"""Regenerate MANIFEST.json and rocq/_CoqProject from the sources.
Property theorems are named Cnn_...; status and notes live in tools/status.json."""
import json, re, glob, os
root = os.path.dirname(os.path.dirname(os.path.abspath(__file__)))
order = [l.strip() for l in open(root + '/tools/order.txt') if l.strip()]
have = {os.path.basename(f)[:-2] for f in glob.glob(root + '/rocq/theories/*.v')}
assert have == set(order) and len(order) == len(set(order)), have ^ set(order)
open(root + '/rocq/_CoqProject', 'w').write(
    '-Q theories Verif\n' + ''.join('theories/%s.v\n' % f for f in order))
thms = {}
for f in order:
    src = open('%s/rocq/theories/%s.v' % (root, f)).read()
    for m in re.finditer(r'^(?:Theorem|Corollary)\s+(C\d\d\d?)_(\w+)', src, re.M):
        thms.setdefault(m.group(1), []).append(m.group(1) + '_' + m.group(2))
st = json.load(open(root + '/tools/status.json'))
ids = [json.loads(l)['id'] for l in open(root + '/properties.jsonl') if l.strip()]
claims = []
for i in ids:
    t = thms.get(i, [])
    if not t: continue
    s = st.get(i, {'status': 'partial', 'note': ''})
    claims.append({'property': i, 'status': s['status'], 'theorems': t, 'note': s['note']})
unk = set(thms) - set(ids)
assert not unk, unk
json.dump({'claims': claims}, open(root + '/MANIFEST.json', 'w'), indent=1)
print(len(claims), 'claims', sum(len(c['theorems']) for c in claims), 'theorems; missing:', [i for i in ids if i not in thms])
