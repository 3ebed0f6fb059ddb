#!/usr/bin/env python3
"""Regenerates the assumptions table of DESIGN.md: runs Print Assumptions on every theorem named in MANIFEST.json (needs a built rocq/)."""
import json,re,subprocess,glob,collections
M=json.load(open('/verif/MANIFEST.json'))['claims']
where={}
for f in glob.glob('/verif/rocq/theories/*.v'):
    for n in re.findall(r'^\s*(?:Theorem|Lemma|Corollary|Example)\s+(\w+)',open(f).read(),re.M): where.setdefault(n,f.split('/')[-1][:-2])
ths=[]
for c in M:
    for t in c['theorems']:
        if t not in ths: ths.append(t)
src=''
for t in ths: src+=f'From Verif Require {where[t]}.\nGoal True. idtac "@@{t}". Abort.\nPrint Assumptions Verif.{where[t]}.{t}.\n'
open('/tmp/scratch/ass.v','w').write(src)
out=subprocess.run('cd /tmp/scratch && coqc -Q /verif/rocq/theories Verif ass.v',shell=True,capture_output=True,text=True)
if out.returncode: print(out.stderr[-2000:])
groups=collections.OrderedDict()
for blk in out.stdout.split('@@')[1:]:
    name,rest=blk.split('\n',1)
    ax=[] if 'Closed under' in rest else sorted(set(re.findall(r'^([A-Za-z_][\w.]*)\s*:',rest,re.M))|set(re.findall(r'^([A-Za-z_][\w.]*)\s*$',rest,re.M)))
    ax=[a for a in ax if a!='Axioms']
    groups.setdefault(tuple(ax),[]).append(name)
txt=''
for ax,names in groups.items():
    txt+='* '+(', '.join('`'+a+'`' for a in ax) if ax else 'closed under the global context (no axiom)')+':\n  '+', '.join(names)+'\n'
d=open('/verif/DESIGN.md').read()
a='<!-- assumptions -->';b='<!-- /assumptions -->'
i=d.index(a)+len(a);j=d.index(b)
open('/verif/DESIGN.md','w').write(d[:i]+'\n'+txt+d[j:])
print(len(ths),[ (len(k),len(v)) for k,v in groups.items()])
