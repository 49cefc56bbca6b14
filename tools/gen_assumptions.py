"""Print Assumptions of every theorem in MANIFEST.json, grouped by the set of axioms -> tools/assumptions.md"""
import json,subprocess,re,os
man=json.load(open('/verif/MANIFEST.json'))['claims']
th=[]
for c in man:
    for t in c['theorems']:
        if t not in th: th.append(t)
files=[l.strip()[9:-2] for l in open('/verif/rocq/_CoqProject') if l.startswith('theories/') and 'Conform' not in l]
os.makedirs('/tmp/pa',exist_ok=True)
with open('/tmp/pa/PA.v','w') as f:
    f.write('From Coquelicot Require Import Coquelicot.\nFrom Verif Require Import '+' '.join(files)+'.\n')
    for t in th:
        f.write(f'Goal True. idtac "@@ {t}". exact I. Qed.\nPrint Assumptions {t}.\n')
out=subprocess.run(['coqc','-w','none','-Q','/verif/rocq/theories','Verif','/tmp/pa/PA.v'],capture_output=True,text=True)
assert out.returncode==0, out.stderr[-2000:]
cur=None;ax={}
for l in out.stdout.split('\n'):
    m=re.match(r'@@ (\S+)',l)
    if m: cur=m.group(1); ax[cur]=set(); continue
    m=re.match(r'([A-Za-z_][\w.\']*)\s*(:|$)',l)
    if m and cur and not l.startswith('Axioms') and not l.startswith('Closed'): ax[cur].add(m.group(1))
groups={}
for t in th: groups.setdefault(tuple(sorted(ax[t])),[]).append(t)
with open('/verif/tools/assumptions.md','w') as f:
    for g,ts in sorted(groups.items(),key=lambda x:(len(x[0]),x[0])):
        f.write('* '+('**Closed under the global context**' if not g else '**'+', '.join('`'+a+'`' for a in g)+'**')+f' ({len(ts)}): '+', '.join('`'+t+'`' for t in ts)+'.\n')
print({g:len(t) for g,t in groups.items()})
