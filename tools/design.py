import json,sys
sys.path.insert(0,'/verif/tools')
from props import P
HEAD=open('/verif/tools/design_head.md').read()
PLAN=json.load(open('/verif/tools/plan.json'))
import glob,re,os
src={os.path.basename(f)[:-2]:open(f).read() for f in glob.glob('/verif/rocq/theories/*.v')}
deps={k:set(w for l in re.findall(r'Require (?:Import|Export) ([^.]*)\.',v) for w in l.split() if w in src) for k,v in src.items()}
def closure(k,seen):
    for w in deps[k]:
        if w not in seen: seen.add(w); closure(w,seen)
    return seen
def files(i):
    th=sorted(k for k,v in src.items() if re.search(r'^\s*Theorem '+i+'_',v,re.M))
    mo=sorted(set(w for k in th for w in deps[k] if re.search('(Model|Spec|Ref)$',w)))
    if not mo: mo=sorted(set(w for k in th for w in closure(k,set()) if w.endswith('Model')))
    return mo,th
with open('/verif/DESIGN.md','w') as f:
    f.write(HEAD)
    f.write("\n## 4. Per-property plan\n\n| id | property | model and specification files | theorems in | how it is proved |\n|---|---|---|---|---|\n")
    for x in P:
        m,h=PLAN.get(x['id'],("-","-"))
        mo,th=files(x['id'])
        f.write("| %s | %s | %s | %s | %s |\n"%(x['id'],x['title'],', '.join(mo) or m,', '.join(th) or '(planned)',h))
