#!/usr/bin/env python3
"""Print Assumptions for every theorem of MANIFEST.json (needs a built rocq/).  Rewrites the appendix of DESIGN.md."""
import json,os,re,subprocess,tempfile
R='/verif/rocq'
files=[l.strip() for l in open(R+'/_CoqProject') if l.strip().endswith('.v')]
where={}
for f in files:
    for m in re.finditer(r'^\s*(?:Theorem|Lemma|Corollary|Example)\s+([A-Za-z0-9_\']+)',open(R+'/'+f).read(),re.M):
        where.setdefault(m.group(1),os.path.basename(f)[:-2])
cl=json.load(open('/verif/MANIFEST.json'))['claims']
ths=sorted({t for c in cl for t in c['theorems']})
d=tempfile.mkdtemp(); p=d+'/pa.v'
with open(p,'w') as o:
    for f in sorted({where[t] for t in ths}): o.write(f'From Verif Require {f}.\n')
    for t in ths: o.write(f'Print Assumptions {where[t]}.{t}.\n')
r=subprocess.run(['coqc','-Q',R+'/theories','Verif',p],stdout=subprocess.PIPE,stderr=subprocess.STDOUT,text=True).stdout
n=r.count('Closed under the global context')
print(len(ths),'theorems;',n,'closed'); 
if n!=len(ths): print(r[:3000]); raise SystemExit(1)
D='/verif/DESIGN.md'; s=open(D).read(); mark='## Appendix: Print Assumptions'
s=s.split(mark)[0].rstrip()+'\n\n'+mark+f'\n\n`tools/assumptions.py` prints the assumptions of the {len(ths)} theorems of MANIFEST.json: every one is\n"Closed under the global context" (no axiom, not even of the standard library).\n\n'
by={}
for t in ths: by.setdefault(where[t],[]).append(t)
for f in sorted(by): s+=f'* `{f}`: '+', '.join(f'`{t}`' for t in by[f])+'\n'
open(D,'w').write(s)
