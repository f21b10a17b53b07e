#!/usr/bin/env python3
"""Regenerates MANIFEST.json from the table below; checks every theorem name exists."""
import json,glob,re,sys
C={}
def c(p,st,th,note): C[p]={"property":p,"status":st,"theorems":th.split(),"note":note}
exec(open('/verif/tools/claims.py').read())
names=set()
for f in glob.glob('/verif/rocq/theories/*.v'):
    for m in re.finditer(r'^\s*(?:Theorem|Lemma|Corollary)\s+(\w+)',open(f).read(),re.M): names.add(m.group(1))
bad=[t for x in C.values() for t in x['theorems'] if t not in names]
props=[json.loads(l)['id'] for l in open('/verif/properties.jsonl') if l.strip()]
missing=[p for p in props if p not in C]
json.dump({"claims":[C[p] for p in sorted(C)]},open('/verif/MANIFEST.json','w'),indent=1)
print("bad",bad,"missing",missing)
