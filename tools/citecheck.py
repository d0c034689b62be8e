# prints every citation "file a-b" of the model files with the first line of /repo it points to
import re,glob,os,subprocess,sys
idx={}
for root,_,fs in os.walk('/repo'):
    for f in fs: idx.setdefault(f,[]).append(os.path.join(root,f))
seen=set()
for f in sorted(glob.glob('/verif/rocq/theories/*.v')):
    if len(sys.argv)>1 and not any(a in f for a in sys.argv[1:]): continue
    s=open(f).read()
    for m in re.finditer(r'([\w/]*?(\w+\.(?:cc|h|hpp|py)))[: ]\s*(\d+)(?:\s*-\s*(\d+))?',s):
        name=m.group(2); a=int(m.group(3)); b=int(m.group(4) or a)
        cand=[p for p in idx.get(name,[]) if m.group(1).strip('/') in p] or idx.get(name,[])
        key=(os.path.basename(f),name,a,b)
        if key in seen: continue
        seen.add(key)
        if not cand: print('NOFILE',key); continue
        p=sorted(cand,key=lambda p:'test' in p)[0]
        L=open(p,errors='replace').read().split('\n')
        if b>len(L) or b<a: print('RANGE',key,len(L)); continue
        nxt=s[m.end():].split('\n')
        d=next((l for l in nxt if re.match(r'\s*(Definition|Fixpoint|Record|Inductive|Theorem|Lemma)',l)),'')
        dn=re.match(r'\s*\w+\s+(\w+)',d); dn=dn.group(1) if dn else '-'
        print(f'{key[0][:-2]}|{dn}|{name} {a}-{b}| {L[a-1].strip()[:55]} ... {L[b-1].strip()[:25]}')
