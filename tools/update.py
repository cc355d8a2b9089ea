#!/usr/bin/env python3
"""Regenerates rocq/_CoqProject's file list and MANIFEST.json (claims in tools/claims.py)."""
import os, json, re, sys
root = os.path.dirname(os.path.dirname(os.path.abspath(__file__)))
sys.path.insert(0, os.path.join(root, 'tools'))
vs = []
for d, _, fs in os.walk(os.path.join(root, 'rocq/theories')):
    for f in fs:
        if f.endswith('.v'):
            vs.append(os.path.relpath(os.path.join(d, f), os.path.join(root, 'rocq')))
open(os.path.join(root, 'rocq/_CoqProject'), 'w').write('-Q theories Verif\n\n' + '\n'.join(sorted(vs)) + '\n')
from claims import CLAIMS
names = set()
for v in vs:
    t = open(os.path.join(root, 'rocq', v)).read()
    for m in re.finditer(r'^\s*Theorem\s+(\w+)', t, re.M):
        names.add(m.group(1))
used = set()
out = []
for prop, status, ths, note in CLAIMS:
    for t in ths:
        if t not in names: print('MISSING THEOREM', t)
        used.add(t)
    out.append({"property": prop, "status": status, "theorems": ths, "note": note})
for n in sorted(names - used): print('unclaimed theorem', n)
props = [json.loads(l)['id'] for l in open(os.path.join(root, 'properties.jsonl'))]
have = {c["property"] for c in out}
for p in props:
    if p not in have: print('property without claim', p)
json.dump({"claims": out}, open(os.path.join(root, 'MANIFEST.json'), 'w'), indent=1)
