#!/usr/bin/env python3
"""Collect theorems C??_* from rocq/theories/P_*.v into MANIFEST.json.
Status comes from STATUS (default: proved); properties without theorems are skipped."""
import re,glob,json,os
root=os.path.join(os.path.dirname(os.path.abspath(__file__)),"..")
STATUS={}   # id -> (status, note)
NOTES={}
try:
    exec(open(os.path.join(root,"tools","manifest_notes.py")).read())
except FileNotFoundError: pass
th={}
for f in sorted(glob.glob(root+"/rocq/theories/P_*.v")):
    for m in re.finditer(r"^Theorem (C\d\d_\w+)",open(f).read(),re.M):
        th.setdefault(m.group(1)[:3],[]).append(m.group(1))
ids=[json.loads(l)["id"] for l in open(root+"/properties.jsonl")]
claims=[]
for i in ids:
    if i in th:
        claims.append(dict(property=i,status=STATUS.get(i,"proved"),theorems=th[i],note=NOTES.get(i,"")))
    elif i in STATUS:
        claims.append(dict(property=i,status=STATUS[i],theorems=[],note=NOTES.get(i,"")))
json.dump({"claims":claims},open(root+"/MANIFEST.json","w"),indent=1)
print(len(claims),"claims; missing:",[i for i in ids if i not in th])
