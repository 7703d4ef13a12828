#!/usr/bin/env python3
"""seeded/LOG.jsonl from the results of mutate.py (one line per attempt) and the notes below."""
import json, glob, os
from uses import rest_on
D=os.path.dirname(os.path.abspath(__file__))
EQ={39:"finish still refuses: the other two asserts imply the dropped one for every reachable builder",
    41:"finish still refuses: the other asserts imply the dropped one for every reachable builder",
    664:"equivalent: no root is refused (C67_ready), the step is never taken",45:"equivalent program", 78:"equivalent: both headers are 16 bytes", 83:"equivalent program", 131:"equivalent program",
    241:"equivalent: only called for len >= 4 (smaller lengths are handled before)",
    163:"equivalent for users: equal keys still feed equal input", 170:"equivalent: iteration order is not observable (C05)",
    342:"environment: a once cell has no exclusive guard, the edit changes no program", 397:"equivalent: derived code leaves every scope itself",
    411:"equivalent: removing an absent reference changes nothing",
    489:"equivalent: the extra level is never used (only a lemma about the form of the definition fails)",
    492:"equivalent on every graph that can be obtained (C01): the cached total is the sum", 493:"equivalent on every graph that can be obtained (C01)",
    450:"no edit of behaviour (intended control)", 456:"str_len is used only by the fixtures of Instances.v",
    508:"equivalent: the difference printed in a warning always fits the isize range, so the branch that wraps is never reached",
    496:"not observable: the sum is the same, only the literal form of the definition differs"}
TIGHT={53:"C13_warnings evaluated on siblings out of order",61:"instances: maps with distinct keys and values",
    92:"instances: maps with distinct keys and values",109:"instances: IndexSet with spare capacity",117:"C46 instances for str",
    119:"C46 instances for BigInt",120:"C46 instances for SmallVec",122:"C27 instances with accumulated attributes",
    130:"C28_struct_exact, C28_enum_exact: the evaluation of patterns now rejects a name bound twice (it used to accept the last one)",
    144:"C27 instances", 201:"new theorem C12_text: finish_and_write_flame_graph gives exactly the listing (no theorem covered it)",
    234:"C30 instances with unpadded layouts", 235:"C30 instances with unpadded layouts",
    321:"C52_looks, C49_content_guarded (what is visited is visited under its guard)", 408:"new theorem C54_dash_maps: the visit of a DashMap takes no shard exclusively",
    491:"C58_all_or_nothing also evaluated on graphs without children", 499:"new theorem C59_any: depth of arbitrary visits (values never go on after a repeated pointer in the same scope)",
    588:"C64_snapshot: the answers of shards are specified independently of the model's count", 594:"new theorem C64_sizes", 595:"C42_registers: plain names are specified independently; new theorem C42_panics (found by mechanical mutation)"}
NOTE={i:"relation (not executable): killed by the proof of the invariant behind C24" for i in (71,72,73,74,75,230,231)}
out=[]
for f in sorted(glob.glob('/tmp/mut/results/*.json')):
    r=json.load(open(f)); i=r['index']
    e={"n":i,"definition":r['defn'],"file":r['file'],"edit":{"old":r['old'],"new":r['new']},"claim":r['claim'],"expected":r['props'],
       "theorems_failed":r['violated'] or [],"first_failing_proofs":r['first_failures'][:8],"tightened":[TIGHT[i]] if i in TIGHT else []}
    if i in EQ: e["note"]="claim not broken: "+EQ[i]
    elif i in NOTE: e["note"]=NOTE[i]
    elif not r['violated'] and not r['first_failures']: e["note"]="survived"
    elif not r['violated']: e["note"]="no instance evaluates to false; the proofs named fail"
    props=[p for q in r['props'] for p in (q if isinstance(q,list) else [q])]; e["expected"]=props
    if i not in EQ and not r['violated'] and r['first_failures']:
        lost=rest_on(r['first_failures'])
        e["theorems_failed"]=[t for t in lost if t[:3] in props and 'satisfiable' not in t] or [t for t in lost if 'satisfiable' not in t][:8]
        if e.get("note","").startswith("no instance"): e["note"]+=", and with them those of theorems_failed, which rest on them"
    out.append(e)
os.makedirs(D+'/../seeded',exist_ok=True)
with open(D+'/../seeded/LOG.jsonl','w') as f:
    for e in out: f.write(json.dumps(e,ensure_ascii=False)+'\n')
print(len(out), [e['n'] for e in out if e.get('note')=='survived'])
