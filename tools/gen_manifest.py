#!/usr/bin/env python3
"""Generates MANIFEST.json: theorems are collected from Properties*.v by their Cxx_ prefix."""
import re,json,glob,os
root=os.path.join(os.path.dirname(__file__),'..')
thms={}
for f in sorted(glob.glob(os.path.join(root,'rocq/theories/Properties*.v'))):
    for m in re.finditer(r'^Theorem\s+(C\d\d)(_\w+)',open(f).read(),re.M):
        thms.setdefault(m.group(1),[]).append(m.group(1)+m.group(2))
notes=json.load(open(os.path.join(root,'tools/notes.json')))
claims=[]
for l in open(os.path.join(root,'properties.jsonl')):
    p=json.loads(l)['id']
    n=notes.get(p,{})
    ts=thms.get(p,[])
    if not ts: continue
    st=n.get('status') or ('partial' if all(t.endswith('_partial') for t in ts) else 'proved')
    claims.append({'property':p,'status':st,'theorems':ts,'note':n.get('note','')})
json.dump({'claims':claims},open(os.path.join(root,'MANIFEST.json'),'w'),indent=1)
print(len(claims),'claims',sum(len(c['theorems']) for c in claims),'theorems')
