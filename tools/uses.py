#!/usr/bin/env python3
"""Which theorems rest on a lemma: by the names that occur in statements and proofs."""
import re,os,glob
T=os.path.join(os.path.dirname(os.path.abspath(__file__)),'..','rocq','theories')
ITEM=re.compile(r'^\s*(?:#\[[^\]]*\]\s*)?(?:Local\s+|Global\s+)?(Lemma|Theorem|Example|Corollary|Fact|Definition|Fixpoint|Inductive|Record|Remark|Ltac)\s+([A-Za-z_][\w\']*)',re.M)
TOK=re.compile(r"[A-Za-z_][\w']*(?:\.[A-Za-z_][\w']*)*")
def graph():
    files={os.path.basename(p)[:-2]:re.sub(r'\(\*.*?\*\)',' ',open(p).read(),flags=re.S) for p in glob.glob(T+'/*.v')}
    defs={}; imports={}
    for f,s in files.items():
        ms=list(ITEM.finditer(s))
        defs[f]={}
        for i,m in enumerate(ms):
            end=ms[i+1].start() if i+1<len(ms) else len(s)
            defs[f][m.group(2)]=defs[f].get(m.group(2),'')+s[m.end():end]
        imports[f]=[x for r in re.findall(r'From Verif Require Import ([^.]*)\.',s) for x in r.split()]
    users={}
    for f in files:
        order=[f]+imports[f][::-1]
        for n,body in defs[f].items():
            for t in set(TOK.findall(body)):
                q=t.split('.')
                src=None
                if len(q)>1 and q[-2] in defs and q[-1] in defs[q[-2]]: src=(q[-2],q[-1])
                elif len(q)==1:
                    for g in order:
                        if t in defs.get(g,{}): src=(g,t); break
                if src and src!=(f,n): users.setdefault(src,set()).add((f,n))
    return users
USERS=graph()
def rest_on(names):
    """The theorems C.._... that rest on one of [names] ("File.lemma")."""
    todo=[tuple(n.split('.',1)) for n in names]; seen=set(todo)
    while todo:
        for u in USERS.get(todo.pop(),()):
            if u not in seen: seen.add(u); todo.append(u)
    return sorted({n for f,n in seen if re.match(r'C\d\d_',n) and not n.endswith('_lemma')})
