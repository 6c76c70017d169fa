"""Run Print Assumptions on every theorem of MANIFEST.json and rewrite section 6 of DESIGN.md.
   Needs a built tree."""
import json, re, subprocess, os, collections
R='/verif/rocq/theories'
man=json.load(open('/verif/MANIFEST.json'))['claims']
names=[t for c in man for t in c['theorems']]
where={}
for f in sorted(os.listdir(R)):
    if f.endswith('.v'):
        for m in re.finditer(r'^\s*(?:Theorem|Lemma)\s+(\w+)',open(f'{R}/{f}').read(),re.M): where.setdefault(m.group(1),f[:-2])
os.makedirs('/tmp/assum',exist_ok=True)
src='From Verif Require '+' '.join(sorted({where[n] for n in names}))+'.\n'
for n in names: src+=f'Goal True. idtac "@@{n}". exact I. Qed.\nPrint Assumptions Verif.{where[n]}.{n}.\n'
open('/tmp/assum/A.v','w').write(src)
out=subprocess.run(['coqc','-Q',R,'Verif','/tmp/assum/A.v'],capture_output=True,text=True).stdout
parts=re.split(r'@@(\w+)\n',out)[1:]
grp=collections.OrderedDict()
for n,b in zip(parts[::2],parts[1::2]):
    ax=tuple(sorted(set(re.findall(r'^([A-Za-z_][\w.]*)\s*(?::|$)',b,re.M))-{'Axioms'}))
    if 'Closed under' in b: ax=()
    grp.setdefault(ax,[]).append(n)
s=open('/verif/DESIGN.md').read()
s=s[:s.index('## 6.')] if '## 6.' in s else s.rstrip()+'\n\n'
s+='## 6. Print Assumptions, theorem by theorem\n\nGenerated by `tools/assumptions.py` from the built files.\n'
for ax,ns in sorted(grp.items(),key=lambda p:len(p[0])):
    s+='\n* '+('**Closed under the global context**' if not ax else '**'+', '.join(ax)+'**')+f' ({len(ns)} theorems): '+', '.join(ns)+'.\n'
open('/verif/DESIGN.md','w').write(s)
for ax,ns in grp.items(): print(len(ns),ax)
