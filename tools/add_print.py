#!/usr/bin/env python3
"""Insert 'Print Assumptions T.' after the proof of every Theorem in P_*.v (idempotent)."""
import re,glob,os
root=os.path.join(os.path.dirname(os.path.abspath(__file__)),"..")
for f in glob.glob(root+"/rocq/theories/P_*.v"):
    L=open(f).read().split("\n"); out=[]; cur=None
    for i,l in enumerate(L):
        m=re.match(r"Theorem (\w+)",l)
        if m: cur=m.group(1)
        out.append(l)
        if cur and re.search(r"\bQed\.\s*$",l):
            if not (i+1<len(L) and L[i+1].startswith("Print Assumptions")):
                out.append("Print Assumptions %s."%cur)
            cur=None
    if out!=L: open(f,"w").write("\n".join(out))
