#!/usr/bin/env python3
"""Appends the per-property table to tools/design_head.md and writes DESIGN.md."""
import json, os
root = os.path.dirname(os.path.dirname(os.path.abspath(__file__)))
P = {}
for l in open(root + '/properties.jsonl'):
    p = json.loads(l); P[p['id']] = p
C = {c['property']: c for c in json.load(open(root + '/tools/claims.json'))}
o = open(root + '/tools/design_head.md').read()
o += '| property | title | status | theorems | scope |\n|---|---|---|---|---|\n'
for k in sorted(P):
    c = C.get(k, {'status': 'planned', 'theorems': [], 'note': ''})
    o += '| %s | %s | %s | %s | %s |\n' % (k, P[k]['title'], c['status'], ', '.join('`%s`' % t for t in c['theorems']), c['note'])
open(root + '/DESIGN.md', 'w').write(o)
