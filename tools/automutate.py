#!/usr/bin/env python3
"""Mechanical mutants of the model: for each definition of the model files up to
N sites (random, fixed seed) are edited by a textual operator; the mutant is built until
the first failure.  usage: automutate.py OUT N SEED WORKER NWORKERS
Result per mutant: 'bad' (the edited file or another model does not compile),
'killed' (a proof fails), 'survived' (everything still builds)."""
import sys, os, re, glob, random, subprocess, shutil, json
BASE='/tmp/mut/base'
FILES=['Base','KeyModel','HMap','FlameModel','BuilderModel','VisitorModel','SizeOfModel','GlobalModel','LayoutModel','ImplModel',
  'IdentityModel','DeriveModel','LockModel','ChangeModel','SnapshotModel','DashModel','PoolModel','WholeModel','DropModel','ExtentModel','InterruptModel','NestModel','UnwindModel','WaitModel']
OPS=[(r'<\?','<=?'),(r'<=\?','<?'),(r'&&','||'),(r'\|\|','&&'),(r'\btrue\b','false'),(r'\bfalse\b','true'),
 (r'\bnegb ','(fun x : bool => x) '),(r'\bFine\b','Panicked'),(r'\bPanicked\b','Fine'),(r'\bNKInline\b','NKUnique'),(r'\bNKUnique\b','NKInline'),(r'\bNKShared\b','NKInline'),
 (r'\bDone\b','Unwinding'),(r'\bUnwinding\b','Done'),(r' \+ ',' - '),(r' - ',' + '),(r' \* ',' + '),(r'\bS (\w+)\b',r'\1'),(r'\b(\d+)\b',lambda g:str(int(g.group(1))+1)),
 (r'\bN\.max\b','N.min'),(r'\bN\.min\b','N.max'),(r'\bremove_guard\b','(fun (x : _) (y : _) => y)'),(r'\brev ',''),(r'\bNone\b','Some _'),
 (r'=\?','<?'),(r'\bforallb\b','existsb'),(r'\bexistsb\b','forallb'),(r'"(\w+)"',r'"x\1"'),(r'\bhd\b','last'),(r'\bfst\b','snd'),(r'\bsnd\b','fst'),
 (r' \+\+ (\w+)\b',''),(r'\b(\w+) :: (\w+)\b',r'\2'),(r'\bSome (\w+)\b','None'),(r' = ',' <> '),(r' /\\ ',' \\/ '),(r'\bIn (\w+) (\w+)\b',r'~ In \1 \2'),
 (r'\bVInline\b','VUnique'),(r'\bVUnique\b','VInline'),(r'\bvisit (\w+)\b','VRet'),(r'\bvseq (\w+|\([^()]*\)) (\w+|\([^()]*\))',r'vseq \2 \1'),(r'if (\w+) then',r'if negb \1 then'),
 (r'\(if ([^()]*) then',r'(if negb (\1) then'),(r'\bExclusive\b','Reading'),(r'\bReading\b','Exclusive'),(r'\bNKRoot\b','NKInline')]
def code_mask(s):
    m=bytearray(b'\1'*len(s)); d=0; i=0
    while i<len(s):
        if s.startswith('(*',i): d+=1; m[i]=m[i+1]=0; i+=2; continue
        if s.startswith('*)',i): d-=1; m[i]=m[i+1]=0; i+=2; continue
        if d: m[i]=0
        i+=1
    return m
def sites():
    out=[]
    for n in FILES:
        s=open(f'{BASE}/theories/{n}.v').read(); m=code_mask(s)
        heads=[g for g in re.finditer(r'^\s*(?:#\[\w+\]\s*)?(Definition|Fixpoint|with|Inductive|Record|Lemma|Notation|Section|End|Theorem|Variant|Hypothesis|Variable|Arguments|Set|From)\b\s*([\w\']*)',s,re.M) if m[g.start(1)]]
        for j,g in enumerate(heads):
            if g.group(1) not in('Definition','Fixpoint','with','Inductive'): continue
            end=heads[j+1].start() if j+1<len(heads) else len(s)
            a=s.find(':=',g.end());
            if a<0 or a>end: continue
            here=[]
            for k,(pat,rep) in enumerate(OPS):
                for h in re.finditer(pat,s[a:end]):
                    if not m[a+h.start()]: continue
                    new=h.expand(rep) if isinstance(rep,str) else rep(h)
                    if new!=h.group(0): here.append((a+h.start(),a+h.end(),new))
            out.append((n,g.group(2),here))
    return out
def line_of(s,i): return s.count('\n',0,i)+1
if __name__=='__main__':
    outf,N,seed,w,nw=sys.argv[1],int(sys.argv[2]),int(sys.argv[3]),int(sys.argv[4]),int(sys.argv[5])
    rnd=random.Random(seed); todo=[]
    for n,d,here in sites():
        rnd.shuffle(here)
        for h in here[:N]: todo.append((n,d)+h)
    rnd.shuffle(todo)
    if os.environ.get('COUNT'): print(len(todo)); sys.exit()
    W=f'/tmp/mut/auto{w}'
    for idx,(n,d,a,b,new) in enumerate(todo):
        if idx%nw!=w: continue
        shutil.rmtree(W,ignore_errors=True); subprocess.run(f'cp -a {BASE} {W}',shell=True)
        f=f'{W}/theories/{n}.v'; s=open(f).read()
        open(f,'w').write(s[:a]+new+s[b:])
        try:
            r=subprocess.run('make -j2 2>&1',shell=True,cwd=W,capture_output=True,text=True,timeout=1500); o=r.stdout; rc=r.returncode
        except subprocess.TimeoutExpired: o='TIMEOUT'; rc=1
        g=re.search(r'File "\./theories/(\w+)\.v", line (\d+)',o)
        where=g.group(1)+':'+g.group(2) if g else ('TIMEOUT' if o=='TIMEOUT' else '')
        res='survived' if rc==0 else 'bad' if g and (g.group(1).endswith('Model') or g.group(1) in('Base','HMap')) else 'killed'
        ln=line_of(s,a)
        rec=dict(file=n,defn=d,line=ln,old=s[a:b],new=new,text=s.split('\n')[ln-1].strip(),res=res,where=where)
        with open(outf,'a') as fo: fo.write(json.dumps(rec)+'\n')
