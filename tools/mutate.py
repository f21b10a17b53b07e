#!/usr/bin/env python3
"""Seeded-bug test of the theorems.  usage: mutate.py <mutations.json> [start [end]]
Each mutation: {file, def, old, new, claim, breaks}.  Works on a scratch copy (default /tmp/mut/rocq) that was built
once; rebuilds after the edit and reports which lemma/theorem stopped compiling and which theorems of the manifest
could not be rebuilt.  One JSON line per mutation on stdout (and appended to /tmp/mut/out.jsonl)."""
import json,sys,os,re,subprocess,shutil
SRC='/verif/rocq'; DST=os.environ.get('MUTDIR','/tmp/mut/rocq'); OUT=os.environ.get('MUTOUT','/tmp/mut/out.jsonl')
muts=json.load(open(sys.argv[1])); a=int(sys.argv[2]) if len(sys.argv)>2 else 0; b=int(sys.argv[3]) if len(sys.argv)>3 else len(muts)
def sh(c,t=3000): return subprocess.run(c,shell=True,stdout=subprocess.PIPE,stderr=subprocess.STDOUT,timeout=t,text=True).stdout
def sync():
    os.makedirs(DST,exist_ok=True)
    sh(f'rsync -a --delete --exclude "*.vo*" --exclude "*.glob" --exclude "*.aux" --exclude Makefile --exclude "Makefile.conf" --exclude ".*" {SRC}/ {DST}/') if shutil.which('rsync') else sh(f'mkdir -p {DST} && cp -pu {SRC}/_CoqProject {DST}/ && mkdir -p {DST}/theories && cp -pu {SRC}/theories/*.v {DST}/theories/')
    sh(f'cd {DST} && coq_makefile -f _CoqProject -o Makefile')
    o=sh(f'cd {DST} && make -j4 2>&1 | tail -5'); return o
print(sync(),file=sys.stderr)
manifest=set(t for c in json.load(open('/verif/MANIFEST.json'))['claims'] for t in c.get('theorems',[]))
files=[l.strip() for l in open(DST+'/_CoqProject') if l.strip().endswith('.v')]
where={}
for f in files:
    for m in re.finditer(r'^\s*(?:Theorem|Lemma|Corollary|Example)\s+([A-Za-z0-9_\']+)',open(DST+'/'+f).read(),re.M): where[m.group(1)]=f

deps={f:set() for f in files}; base={os.path.basename(f)[:-2]:f for f in files}
for f in files:
    t=re.sub(r'\(\*.*?\*\)','',open(DST+'/'+f).read(),flags=re.S)
    for m in re.finditer(r'Require\s+(?:Import|Export)?\s*([^.]*)\.\s',t):
        for w in m.group(1).split():
            w=w.split('.')[-1]
            if w in base: deps[f].add(base[w])
def dependents(f):
    out={f}; ch=True
    while ch:
        ch=False
        for x in files:
            if x not in out and deps[x]&out: out.add(x); ch=True
    return out
BK=DST+'/../bk'
for k in range(a,b):
    mu=muts[k]; rel='theories/'+mu['file']; path=DST+'/'+rel; src=open(path).read()
    n=src.count(mu['old'])
    if n!=mu.get('count',1) and not (n>1 and mu.get('first')):
        print(json.dumps({'k':k,'ERROR':f"pattern occurs {n} times",'old':mu['old']})); continue
    st=os.stat(path); dp=dependents(rel)
    shutil.rmtree(BK,ignore_errors=True); os.makedirs(BK)
    for f in dp:
        for e in ('vo','glob','vok','vos'):
            q=DST+'/'+f[:-1]+e
            if os.path.exists(q): shutil.copy2(q,BK); os.remove(q)
    open(path,'w').write(src.replace(mu['old'],mu['new'],1) if mu.get('first') else src.replace(mu['old'],mu['new']))
    out=sh(f'cd {DST} && make -k -j4 COQC="timeout 400 coqc" 2>&1',7000)
    errs=[]
    for m in re.finditer(r'File "\./([^"]+)", line (\d+), characters [^\n]*\n((?:.*\n){0,3})',out):
        if 'Error' not in m.group(3): continue
        f,l=m.group(1),int(m.group(2)); lines=open(DST+'/'+f).read().split('\n')
        name='?'
        for i in range(min(l,len(lines))-1,-1,-1):
            q=re.match(r'^\s*(?:Theorem|Lemma|Corollary|Example|Definition|Fixpoint|Instance|Remark|Fact|Program)\s+([A-Za-z0-9_\']+)',lines[i])
            if q: name=q.group(1); break
        errs.append((f.replace('theories/',''),name,l))
    notbuilt=[f for f in files if not os.path.exists(DST+'/'+f[:-1]+'vo')]
    lost=sorted(t for t in manifest if where.get(t) in notbuilt)
    res={'definition':mu['def'],'file':mu['file'],'edit':mu.get('edit',mu['old']+'  ->  '+mu['new']),'claim_broken':mu['claim'],'first_failures':[f'{x[0]}:{x[1]}' for x in errs],'theorems_failed':lost,'theorems_tightened':[], 'still_proves': not notbuilt}
    if notbuilt and not errs: res['note']='timeout or crash: '+out[-300:]
    print(json.dumps(res),flush=True); open(OUT,'a').write(json.dumps(res)+'\n')
    open(path,'w').write(src); os.utime(path,ns=(st.st_atime_ns,st.st_mtime_ns))
    for f in dp:
        for e in ('vo','glob','vok','vos'):
            q=BK+'/'+os.path.basename(f)[:-1]+e
            if os.path.exists(q): shutil.copy2(q,DST+'/'+f[:-1]+e)
            elif os.path.exists(DST+'/'+f[:-1]+e): os.remove(DST+'/'+f[:-1]+e)
