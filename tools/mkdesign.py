#!/usr/bin/env python3
"""Writes /verif/DESIGN.md from tools/design_head.md, tools/how.py, MANIFEST.json and properties.jsonl."""
import json, os, sys
R = os.path.join(os.path.dirname(os.path.abspath(__file__)), '..')
sys.path.insert(0, os.path.join(R, 'tools'))
from how import HOW
P = {}
for l in open(os.path.join(R, 'properties.jsonl')):
    d = json.loads(l); P[d['id']] = d
C = sorted(json.load(open(os.path.join(R, 'MANIFEST.json')))['claims'], key=lambda c: c['property'])
out = open(os.path.join(R, 'tools', 'design_head.md')).read()
out += "\n## 6. Property by property\n\n"
for c in C:
    i = c['property']
    if not HOW.get(i): print("no note for", i)
    out += f"**{i} {P[i]['title']}** ({c['status']}). {HOW.get(i,'')} Theorems: {', '.join('`'+t+'`' for t in c['theorems'])}.\n\n"
open(os.path.join(R, 'DESIGN.md'), 'w').write(out)
