#!/usr/bin/env python3
"""Regenerates MANIFEST.json from the claim list below; checks that every theorem exists."""
import json,re,glob,os
root=os.path.dirname(os.path.dirname(os.path.abspath(__file__)))
claims=json.load(open(os.path.join(root,'tools','claims.json')))
src="".join(open(f).read() for f in glob.glob(os.path.join(root,'rocq/theories/*.v')))
names=set(re.findall(r'^(?:Theorem|Lemma|Corollary)\s+([A-Za-z0-9_\']+)',src,re.M))
for c in claims:
    for t in c['theorems']:
        assert t in names,(c['property'],t)
ids=[json.loads(l)['id'] for l in open(os.path.join(root,'properties.jsonl'))]
have={c['property'] for c in claims}
print("missing properties:",[i for i in ids if i not in have], "unknown:",[h for h in have if h not in ids])
json.dump({"claims":claims},open(os.path.join(root,'MANIFEST.json'),'w'),indent=1)
