#!/usr/bin/env python3
"""Check that citations file:a-b that name a function of that file cover the function's lines in /repo."""
import re,glob,os,sys
files={}
for root,_,fs in os.walk('/repo'):
    for f in fs:
        if re.search(r'\.(c|h|cpp|hpp)$',f) and '/3rdparty' not in root:
            p=os.path.join(root,f); L=open(p,errors='replace').read().split('\n'); start=None; fn={}
            for i,l in enumerate(L,1):
                m=re.match(r'^(?:static inline )?[A-Za-z_].*?([\w~]+)\s*\(',l)
                if m and not l.rstrip().endswith(';') and not l.startswith('typedef'): start=i;name=m.group(1)
                if l.startswith('}') and start: fn[name]=(start,i); start=None
            files.setdefault(f,[]).append((p,len(L),fn))
bad=0
for v in sorted(glob.glob('/verif/rocq/theories/*.v')):
    for i,l in enumerate(open(v),1):
        for m in re.finditer(r'([\w/]+\.(?:c|cpp|h|hpp)):(\d+)(?:-(\d+))?((?:(?:, | and )\d+-\d+)*)',l):
            b=os.path.basename(m.group(1)); a=int(m.group(2)); z=int(m.group(3) or a)
            cands=[c for c in files.get(b,[]) if c[0].endswith('/'+m.group(1))] or files.get(b,[])
            if not cands: print('%s:%d unknown file %s'%(v,i,m.group(0))); bad+=1; continue
            if all(z>c[1] for c in cands): print('%s:%d beyond end %s'%(v,i,m.group(0))); bad+=1
            for c in cands:
                for n,(s,e) in c[2].items():
                    if re.search(r'\b'+re.escape(n)+r'\b',l) and not m.group(4):
                        rest=[(int(x),int(y)) for x,y in re.findall(re.escape(b)+r':(\d+)-(\d+)',l)]+[(a,z)]
                        if not any(x<=e and y>=s and abs(x-s)<=1 and abs(y-e)<=1 or (s<=x and y<=e) for x,y in rest):
                            print('%s:%d %s : %s is %d-%d'%(os.path.basename(v),i,m.group(0),n,s,e)); bad+=1
print(bad)
