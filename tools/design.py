#!/usr/bin/env python3
"""Writes DESIGN.md: fixed text below + one line per property (plan/method) + files + status + findings (tools/notes.json)."""
import json,re,glob,os,collections
B='/verif/'
P=[json.loads(l) for l in open(B+'properties.jsonl')]
M={c['property']:c for c in json.load(open(B+'MANIFEST.json'))['claims']}
N=json.load(open(B+'tools/notes.json'))
F={}
for f in sorted(glob.glob(B+'rocq/theories/*.v')):
    b=os.path.basename(f)[:-2]
    for m in re.finditer(r'^(?:Theorem|Lemma|Corollary) (C\d+)_',open(f).read(),re.M): F.setdefault(m[1],collections.OrderedDict())[b]=1
old=open(B+'tools/plan_c01_c36.txt').read()
PLAN={}
for l in (old+open(B+'tools/plan_c37_on.txt').read()).splitlines():
    m=re.match(r'((?:C\d+[,-]?)+) (.*)',l)
    if not m: continue
    ids=[]
    for part in m[1].split(','):
        if '-' in part:
            a,b=part.split('-'); ids+=['C%02d'%i for i in range(int(a[1:]),int(b[1:])+1)]
        else: ids.append(part)
    for i in ids: PLAN[i]=m[2]
for l in old.splitlines():
    for m in re.finditer(r'; (C\d+) ([^;]*)',l): PLAN[m[1]]=m[2]
out=open(B+'tools/design_head.md').read()
out+='\n## Per property: what is modelled, how it is proved\n\nStatus as in MANIFEST.json; "Found" lists what the faithful model refutes or leaves open.\n\n'
for p in P:
    i=p['id']; fs=', '.join(F.get(i,{}))
    out+=f"* **{i} {p['title']}** ({M[i]['status']}; {fs}). {PLAN.get(i,'')}"
    if not out.endswith('.'): out+='.'
    n=N.get(i,{}).get('note')
    if n: out+=' *Found:* '+n
    out+='\n'
out+='\n'+open(B+'tools/design_tail.md').read()
open(B+'DESIGN.md','w').write(out)
miss=[p['id'] for p in P if p['id'] not in PLAN]
print(len(out),'bytes; no plan:',miss)
