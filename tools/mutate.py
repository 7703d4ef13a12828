#!/usr/bin/env python3
"""Seeded-bug experiments.  usage: mutate.py [from [to]]  (indices into mutants.M)
For each mutant: copy rocq/ to a scratch directory, apply the edit, evaluate
Instances.violated, build everything with make -k, and write the result to
/tmp/mut/results/NNN.json."""
import sys, os, subprocess, shutil, json, re
sys.path.insert(0, os.path.dirname(__file__))
from mutants import M
BASE='/tmp/mut/base'; W='/tmp/mut/work'; OUT='/tmp/mut/results'
def sh(c, cwd=None, t=1500):
    try: return subprocess.run(c, shell=True, cwd=cwd, capture_output=True, text=True, timeout=t)
    except subprocess.TimeoutExpired as e:
        class R: stdout=''; stderr='TIMEOUT'; returncode=124
        return R()
def lemma_at(path, line):
    ls=open(path).read().split('\n')
    for i in range(min(line,len(ls))-1,-1,-1):
        g=re.match(r'\s*(?:#\[\w+\]\s*)?(?:Local\s+)?(Lemma|Theorem|Example|Corollary|Fact|Definition|Fixpoint|Remark)\s+([\w\']+)',ls[i])
        if g: return g.group(2)
    return '?'
def run(i):
    m=M[i]
    if os.path.exists(f'{OUT}/{i:03d}.json'):
        r=json.load(open(f'{OUT}/{i:03d}.json'))
        if r['old']==m['old'] and r['new']==m['new'] and r.get('rev')==REV: return
    shutil.rmtree(W, ignore_errors=True); sh(f'cp -a {BASE} {W}')
    f=f'{W}/theories/{m["file"]}'; s=open(f).read()
    n=s.count(m['old'])
    if n!=1: print(i,'BAD EDIT count',n,m['defn'],m['old'][:60]); return
    open(f,'w').write(s.replace(m['old'],m['new']))
    p=f'{W}/theories/Instances.v'; s=open(p).read()
    s=s[:s.index('Example instances_hold')]+'Definition show := Eval vm_compute in violated.\nPrint show.\n'
    open(p,'w').write(s)
    r=sh('make -j2 theories/Instances.vo 2>&1', W, 600)
    g=re.search(r'show\s*=\s*(.*?)\n\s*: list string',r.stdout,re.S)
    if g: viol=re.findall(r'"(\w+)"',g.group(1)); ierr=None
    else: viol=None; ierr=r.stdout[-600:]
    r=sh('make -j2 2>&1' if viol else 'make -k -j3 2>&1', W, 1500)
    fails=[]
    for g in re.finditer(r'File "\./theories/(\w+\.v)", line (\d+), characters [\d-]+:\nError',r.stdout):
        fails.append(g.group(1)[:-2]+'.'+lemma_at(f'{W}/theories/{g.group(1)}',int(g.group(2))))
    res=dict(m); res.update(index=i,violated=viol,instances_error=ierr,first_failures=fails,rev=REV)
    json.dump(res,open(f'{OUT}/{i:03d}.json','w'))
    hit=sorted({v[:3] for v in viol}) if viol is not None else None
    print(i,m['defn'],'| expect',m['props'],'| violated',hit,'| fails',fails[:6],flush=True)
os.makedirs(OUT,exist_ok=True)
REV=subprocess.run('git -C /verif rev-parse --short HEAD',shell=True,capture_output=True,text=True).stdout.strip()
a=int(sys.argv[1]) if len(sys.argv)>1 else 0
b=int(sys.argv[2]) if len(sys.argv)>2 else len(M)
if not os.path.exists(BASE) or os.environ.get('FRESH'):
    shutil.rmtree(BASE,ignore_errors=True); sh(f'cp -a /verif/rocq {BASE}')
    sh('coq_makefile -f _CoqProject -o Makefile && make -j4',BASE)
for i in range(a,b): run(i)
