#!/usr/bin/env python3
"""List definitions without a comment citing /repo lines, per file.
A definition is covered if a comment with file:line(s) occurs in the blank-line-free block around it (comment right above,
or inside the body), or in the nearest preceding '(** **'/comment block with no intervening blank-line-separated proof."""
import re,sys,glob
cite=re.compile(r'[\w/]+\.(?:c|h|cpp|hpp|in|txt)\s*:\s*\d+|\b\d{2,4}-\d{2,4}\b|:\d{2,4}\b')
tot=0
for f in sys.argv[1:] or sorted(glob.glob('/verif/rocq/theories/*.v')):
    L=open(f).read().split('\n'); miss=[]
    last=None
    for i,l in enumerate(L):
        m=re.match(r'\s*(?:Definition|Fixpoint|Inductive|Record|CoInductive|Function)\s+([\w\']+)',l)
        if not m: continue
        # preceding lines back to a Proof/Qed
        j=i-1; pre=[]
        while j>=0 and not re.match(r'\s*(Qed|Defined)\.',L[j]) and i-j<14: pre.append(L[j]); j-=1
        k=i; body=[]
        while k<len(L) and L[k].strip()!='' and k-i<80: body.append(L[k]); k+=1
        # contiguous pre comment only
        j=i-1; blk=[]
        while j>=0 and L[j].strip()!='': blk.append(L[j]); j-=1
        txt='\n'.join(blk+body)
        if not cite.search(txt): miss.append((i+1,m.group(1)))
    if miss:
        tot+=len(miss); print(f.split('/')[-1],len(miss),' '.join(n for _,n in miss))
print(tot)
