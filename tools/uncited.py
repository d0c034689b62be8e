import re,glob,os
tot=0
for f in sorted(glob.glob('/verif/rocq/theories/*Model.v')):
    L=open(f).read().split('\n'); bad=[]
    for i,l in enumerate(L):
        m=re.match(r'\s*(Definition|Fixpoint|Record|Inductive|Notation|with)\s+(\S+)',l)
        if not m or m.group(1) in('Notation','with'): continue
        # preceding comment block directly above
        j=i-1; txt=l
        if j>=0 and L[j].rstrip().endswith('*)'):
            while j>=0:
                txt=L[j]+txt
                if '(*' in L[j]: break
                j-=1
        if not re.search(r'(\(\*.*\d)|(cited above|as above|glue|Coq|notation|std::|boost|libstdc|C\+\+|representation|\bcf\.)',txt): bad.append((i+1,m.group(2)))
    if bad: print(os.path.basename(f),len(bad),' '.join(f'{n}@{i}' for i,n in bad)); tot+=len(bad)
print(tot)
