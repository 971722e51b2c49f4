#!/usr/bin/env python3
"""Mutation harness.  usage: mutate.py mutations.json
Each mutation: {file, definition, old, new, edit, claim, expect:[Cnn]}.
Copies /verif/rocq to a scratch directory, applies the edit, rebuilds; each proof
that breaks is admitted in the scratch copy and the build goes on, so that in the
end Print Assumptions tells which property theorems depend on a broken proof."""
import sys,os,re,json,subprocess,shutil,glob
SCR=os.environ.get('SCR','/tmp/mut/rocq')
JOBS=os.environ.get('J','2')
SRC=os.environ.get('SRC','/verif/rocq')
HEAD=re.compile(r'^\s*(?:Local\s+|Global\s+)?(Theorem|Lemma|Example|Corollary|Fact|Remark|Instance|Definition|Fixpoint|Proposition)\s+([A-Za-z0-9_\']+)')
def sh(c,**k): return subprocess.run(c,shell=True,capture_output=True,text=True,**k)
def locate(path,line):
    ls=open(path).read().split('\n'); i=line-1
    while i>=0:
        m=HEAD.match(ls[i])
        if m: return ls,i,m.group(2)
        i-=1
    return ls,None,None
def admit(path,line):
    ls,i,name=locate(path,line)
    if i is None: return None
    # find Proof. and the end
    txt='\n'.join(ls); 
    off=sum(len(l)+1 for l in ls[:i])
    m=re.compile(r'\bProof\b[^.]*\.').search(txt,off)
    if not m: return None
    e=re.compile(r'\b(Qed|Defined|Admitted)\.').search(txt,m.end())
    if not e or e.group(1)=='Admitted': return None
    # error must lie between head and end
    nxt=[x for x in range(i+1,len(ls)) if HEAD.match(ls[x])]
    body=txt[m.start():e.end()]
    keep='\n'*body.count('\n')
    txt=txt[:m.start()]+'Admitted.'+keep+txt[e.end():]
    open(path,'w').write(txt)
    return name
def run(mu):
    os.makedirs(os.path.dirname(SCR),exist_ok=True)
    sh(f'rsync -a --delete {SRC}/ {SCR}/') if shutil.which('rsync') else sh(f'rm -rf {SCR}; cp -a {SRC} {SCR}')
    p=f"{SCR}/theories/{mu['file']}"
    s=open(p).read()
    n=s.count(mu['old'])
    if n!=1: return dict(error=f"pattern occurs {n} times",**mu)
    open(p,'w').write(s.replace(mu['old'],mu['new']))
    failed=[];hard=[]
    for it in range(60):
        r=sh(f'cd {SCR} && coq_makefile -f _CoqProject -o Makefile && timeout 3000 make -k -j{JOBS} 2>&1')
        errs=re.findall(r'File "\./theories/([A-Za-z0-9_]+\.v)", line (\d+), characters [^\n]*\n(Error[^\n]*(?:\n[^\n]*)?)',r.stdout)
        if not errs:
            if 'Error' in r.stdout and r.returncode!=0: hard.append(r.stdout[-600:])
            break
        prog=False
        for f,l,e in errs:
            if f==mu['file'] and False: continue
            nm=admit(f'{SCR}/theories/{f}',int(l))
            if nm: failed.append(f'{f[:-2]}.{nm}'); prog=True
            else: hard.append(f'{f}:{l}: {e[:200]}')
        if not prog: break
    # property theorems affected
    aff=[]
    built=[os.path.basename(x)[:-3] for x in glob.glob(f'{SCR}/theories/Prop*.vo')]
    ths=[]
    for pf in sorted(glob.glob(f'{SCR}/theories/Prop*.v')):
        b=os.path.basename(pf)[:-2]
        names=re.findall(r'^(?:Theorem|Lemma|Corollary)\s+(C\d\d\w*)',open(pf).read(),re.M)
        fresh=os.path.exists(pf+'o') and os.path.getmtime(pf+'o')>=0
        ths.append((b,names))
    src=''
    for b,names in ths:
        src+=f'Require Verif.{b}.\n'
        if mu.get('expect') and not os.environ.get('ALL'): names=[t for t in names if t[:3] in mu['expect']]
        for t in names: src+=f'Goal True. idtac "@@{t}". exact I. Qed.\nPrint Assumptions Verif.{b}.{t}.\n'
    open(f'{SCR}/Assum.v','w').write(src)
    r=sh(f'cd {SCR} && coqc -Q theories Verif Assum.v 2>&1')
    if 'Error' in r.stdout and 'Closed' not in r.stdout: hard.append(r.stdout[-300:])
    cur=None
    for ch in re.split(r'@@',r.stdout)[1:]:
        t=ch.split('\n')[0].strip()
        if 'Closed under the global context' not in ch: aff.append(t)
    survivors=[c for c in mu.get('expect',[]) if not any(a.startswith(c) for a in aff)]
    return dict(definition=mu['definition'],file=mu['file'],edit=mu['edit'],claim=mu['claim'],failed_lemmas=failed[:12],theorems_failed=aff,hard=hard[:3],survived=survivors)
if __name__=='__main__':
    for mu in json.load(open(sys.argv[1])):
        r=run(mu); print(json.dumps(r,ensure_ascii=False),flush=True)
