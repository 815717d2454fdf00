#!/usr/bin/env python3
"""Regenerates MANIFEST.json from the theorem names in rocq/theories/Props*.v.

A theorem named Cnn_* belongs to property Cnn.  A property is `partial` when
one of its theorems ends in _partial or _refuted, unless notes.json says otherwise."""
import json, re, glob, os
root = os.path.dirname(os.path.dirname(os.path.abspath(__file__)))
notes = json.load(open(os.path.join(root, 'tools', 'notes.json')))
thms = {}
for f in sorted(glob.glob(os.path.join(root, 'rocq/theories/Props*.v'))):
    for m in re.finditer(r'^Theorem (C(\d+)_\w+)', open(f).read(), re.M):
        thms.setdefault('C' + m.group(2), []).append(m.group(1))
claims = []
for line in open(os.path.join(root, 'properties.jsonl')):
    pid = json.loads(line)['id']
    n = notes.get(pid, {})
    ts = thms.get(pid, [])
    if not ts:
        status = n.get('status', 'not_applicable')
        if status == 'proved': status = 'not_applicable'
    else:
        status = n.get('status') or ('partial' if any(t.endswith(('_partial', '_refuted')) for t in ts) else 'proved')
    claims.append({'property': pid, 'status': status, 'theorems': ts,
                   'note': n.get('note', '' if ts else 'not proved yet')})
json.dump({'claims': claims}, open(os.path.join(root, 'MANIFEST.json'), 'w'), indent=1)
print({s: sum(c['status'] == s for c in claims) for s in ('proved', 'partial', 'not_applicable')})
