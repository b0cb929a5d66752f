#!/usr/bin/env python3
"""Writes DESIGN.md from DESIGN.head.md, DESIGN.tail.md and what Print Assumptions lists for every theorem in MANIFEST.json.
Run after a build in rocq/."""
import json,os,re,subprocess,tempfile,collections
root=os.path.join(os.path.dirname(os.path.abspath(__file__)),"..")
th=os.path.join(root,"rocq","theories")
claims=json.load(open(os.path.join(root,"MANIFEST.json")))["claims"]
where={}
for f in sorted(os.listdir(th)):
    if f.startswith("Prop_") and f.endswith(".v"):
        for m in re.finditer(r"^Theorem (\w+)",open(os.path.join(th,f)).read(),re.M): where[m.group(1)]=f[:-2]
names=[t for c in claims for t in c["theorems"]]
src="".join("From Verif Require %s.\n"%f for f in sorted(set(where.values())))
for t in names: src+='Goal True. idtac "@@%s". Abort.\nPrint Assumptions %s.%s.\n'%(t,where[t],t)
d=tempfile.mkdtemp(); p=os.path.join(d,"A.v"); open(p,"w").write(src)
out=subprocess.run(["coqc","-Q",th,"Verif",p],capture_output=True,text=True)
if out.returncode: raise SystemExit(out.stderr)
blocks=out.stdout.split("@@")[1:]
ax={}
for b in blocks:
    name,rest=b.split("\n",1)
    ax[name]=tuple(sorted(set(re.findall(r"^([A-Za-z_][\w.]*)\s*(?::|$)",rest.replace("Axioms:",""),re.M))-{"Closed","Axioms"}))
groups=collections.defaultdict(list)
for t in names: groups[ax[t]].append(t)
o="### What Print Assumptions lists\n\nGenerated by tools/gen_assumptions.py from the compiled development.\n"
for g in sorted(groups,key=lambda g:(len(g),g)):
    o+="\n#### %s\n\n"%("Closed under the global context" if not g else ", ".join("`%s`"%x for x in g))
    o+=", ".join(groups[g])+"\n"
rd=lambda f: open(os.path.join(root,"tools",f)).read()
open(os.path.join(root,"DESIGN.md"),"w").write(rd("DESIGN.head.md")+rd("DESIGN.tail.md")+o)
print({g:len(v) for g,v in groups.items()})
