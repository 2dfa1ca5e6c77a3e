#!/usr/bin/env python3
"""Print, grouped, what Print Assumptions lists for every theorem named in MANIFEST.json.
Run after a build in /verif/rocq; output is the table of DESIGN.md section 5."""
import json,re,subprocess,os,glob,collections,tempfile
root=os.path.dirname(os.path.dirname(os.path.abspath(__file__)))
th=os.path.join(root,'rocq','theories')
names=[t for c in json.load(open(os.path.join(root,'MANIFEST.json')))['claims'] for t in c['theorems']]
names=list(dict.fromkeys(names))
mods=sorted(os.path.basename(f)[:-2] for f in glob.glob(th+'/Props_*.v'))
src='From Verif Require %s.\n'%' '.join(mods)
where={}
for m in mods:
    for x in re.findall(r'^(?:Theorem|Lemma|Corollary)\s+([A-Za-z0-9_\']+)',open(f'{th}/{m}.v').read(),re.M): where[x]=m
for n in names: src+=f'Goal True. idtac "@@ {n}". Abort.\nPrint Assumptions Verif.{where[n]}.{n}.\n'
with tempfile.TemporaryDirectory() as d:
    f=os.path.join(d,'A.v'); open(f,'w').write(src)
    out=subprocess.run(['coqc','-Q',th,'Verif',f],capture_output=True,text=True)
    assert out.returncode==0,out.stderr
groups=collections.defaultdict(list)
for blk in out.stdout.split('@@ ')[1:]:
    n,rest=blk.split('\n',1)
    ax=tuple(sorted(a.split('.')[-1] for a in re.findall(r'^([A-Za-z_][A-Za-z0-9_.\']*)\s*(?::|$)',rest,re.M) if a not in('Axioms','Closed')))
    groups[ax].append(n.strip())
assert sum(map(len,groups.values()))==len(names)
for ax,l in sorted(groups.items(),key=lambda x:(len(x[0]),x[0])):
    print(f"* **{', '.join(ax) if ax else 'none (closed under the global context)'}** ({len(l)}): {', '.join(l)}.")
