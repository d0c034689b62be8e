# generates MANIFEST.json from the theorem names (prefix Cnn_) in rocq/theories/*.v and tools/notes.json
import json,re,glob,os
R=os.path.dirname(os.path.dirname(os.path.abspath(__file__)))
ids=[json.loads(l)["id"] for l in open(R+"/properties.jsonl")]
notes=json.load(open(R+"/tools/notes.json"))
th={i:[] for i in ids}
for f in sorted(glob.glob(R+"/rocq/theories/*.v")):
    for m in re.finditer(r"^\s*Theorem (C\d\d\w*)",open(f).read(),re.M):
        th[m.group(1)[:3]].append(m.group(1))
claims=[]
for i in ids:
    n=notes.get(i,{})
    if not th[i]:
        if n.get("status")=="not_applicable": claims.append(dict(property=i,status="not_applicable",theorems=[],note=n["note"]))
        continue
    claims.append(dict(property=i,status=n.get("status","proved"),theorems=th[i],note=n.get("note","")))
json.dump({"claims":claims},open(R+"/MANIFEST.json","w"),indent=1)
fs=sorted(os.path.basename(f) for f in glob.glob(R+"/rocq/theories/*.v"))
open(R+"/rocq/_CoqProject","w").write("-Q theories Verif\n"+"".join("theories/%s\n"%f for f in fs))
print({c["property"]:(c["status"],len(c["theorems"])) for c in claims})
print("missing",[i for i in ids if not any(c["property"]==i for c in claims)])
