#!/usr/bin/env python3
"""Write ASSUMPTIONS.md: for every theorem of MANIFEST.json, what Print Assumptions lists.
usage: mkassumptions.py DIR, DIR holding coqc's output for each Props file (Props_X.v.log)."""
import re,glob,os,json,sys
root=os.path.dirname(os.path.dirname(os.path.abspath(__file__)))
res={}
for f in sorted(glob.glob(root+'/rocq/theories/Props_*.v')):
    names=re.findall(r'^\s*Print Assumptions\s+(\w+)\.',open(f).read(),re.M)
    log=open(sys.argv[1]+'/'+os.path.basename(f)+'.log').read()
    parts=re.split(r'(?m)^(Closed under the global context|Axioms:)',log)
    items=[]
    for i in range(1,len(parts),2):
        items.append([] if parts[i].startswith('Closed') else sorted({x.split('.')[-1] for x in re.findall(r'(?m)^([A-Za-z_][\w.]*)',parts[i+1])}))
    assert len(items)==len(names),(f,len(items),len(names))
    for n,a in zip(names,items): res[n]=(os.path.basename(f),a)
cl=json.load(open(root+'/MANIFEST.json'))['claims']
sets={}
for c in cl:
    for t in c['theorems']:
        if t not in res: print('no Print Assumptions:',t); continue
        sets.setdefault(tuple(res[t][1]),[]).append(t)
out=["# Axioms used by each theorem","",
"Generated by tools/mkassumptions.py from the output of `Print Assumptions` in the Props files.",
"All are axioms of Coq's standard library: `sig_forall_dec`, `sig_not_dec` (Coq.Reals.ClassicalDedekindReals),",
"`functional_extensionality_dep` (Coq.Logic.FunctionalExtensionality), `classic` (Coq.Logic.Classical_Prop),",
"`constructive_indefinite_description` (Coq.Logic.ClassicalEpsilon).",""]
for a,ts in sorted(sets.items(),key=lambda x:(len(x[0]),x[0])):
    out.append("## "+(", ".join(a) if a else "none (closed under the global context)")); out.append("")
    out.append(", ".join(ts)); out.append("")
open(root+'/ASSUMPTIONS.md','w').write("\n".join(out))
for a,ts in sets.items(): print(len(ts),a)
