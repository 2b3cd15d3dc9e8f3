#!/usr/bin/env python3
"""Runs Print Assumptions on every theorem named in MANIFEST.json and writes ASSUMPTIONS.md.
Needs a finished build in /verif/rocq."""
import json, os, re, subprocess, sys, glob
root = os.path.dirname(os.path.dirname(os.path.abspath(__file__)))
th = os.path.join(root, 'rocq', 'theories')
where = {}
for f in sorted(glob.glob(th + '/*.v')):
    for m in re.finditer(r'^(?:Theorem|Lemma|Corollary)\s+([A-Za-z0-9_\']+)', open(f).read(), re.M):
        where.setdefault(m.group(1), []).append(os.path.basename(f)[:-2])
claims = json.load(open(root + '/MANIFEST.json'))['claims']
names = []
for c in claims:
    for t in c['theorems']:
        if t not in names: names.append(t)
res = {}
by = {}
for t in names:
    by.setdefault(where[t][0], []).append(t)
for mod, ts in sorted(by.items()):
    src = 'From Verif Require Import %s.\n' % mod
    for t in ts: src += 'Goal True. idtac "@@%s". exact I. Qed.\nPrint Assumptions %s.%s.\n' % (t, mod, t)
    open('/tmp/pa_q.v', 'w').write(src)
    out = subprocess.run(['coqc', '-q', '-Q', th, 'Verif', '/tmp/pa_q.v'], capture_output=True, text=True)
    if out.returncode: print(mod, out.stderr); sys.exit(1)
    for blk in out.stdout.split('@@')[1:]:
        n, rest = blk.split('\n', 1)
        if 'Closed under the global context' in rest: res[n] = []
        else: res[n] = sorted(set(re.findall(r'^([A-Za-z_][\w.]*)\s*:', rest, re.M)) | set(re.findall(r'^([A-Za-z_][\w.]*)\s*$', rest, re.M)) - {'Axioms'})
axs = sorted({a for l in res.values() for a in l if a != 'Axioms'})
o = ['# Print Assumptions', '', 'Generated by `tools/assumptions.py` from the built development. Axioms (all of the standard library):', '']
key = {a: chr(65 + i) for i, a in enumerate(axs)}
for a in axs: o.append('* **%s** `%s`' % (key[a], a))
o += ['', '`-` means "Closed under the global context".', '', '| property | theorem | module | axioms |', '|---|---|---|---|']
for c in claims:
    for t in c['theorems']:
        o.append('| %s | `%s` | `%s` | %s |' % (c['property'], t, where[t][0], ' '.join(key[a] for a in res[t] if a in key) or '-'))
open(root + '/ASSUMPTIONS.md', 'w').write('\n'.join(o) + '\n')
print(axs, len(res))
