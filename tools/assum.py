import json,subprocess,re,os,glob
m=json.load(open('/verif/MANIFEST.json'))
ths=[(c['property'],t) for c in m['claims'] for t in c['theorems']]
files=[os.path.basename(f)[:-2] for f in glob.glob('/verif/rocq/theories/*.v')]
src='From Verif Require '+' '.join(sorted(files))+'.\n'
where={}
for f in files:
    s=open(f'/verif/rocq/theories/{f}.v').read()
    for x in re.findall(r'^\s*(?:Theorem|Lemma|Corollary|Definition|Fact|Proposition)\s+([A-Za-z0-9_\']+)',s,re.M): where.setdefault(x,f)
for p,t in ths:
    src+=f'Goal True. idtac "@@@ {t}". Abort.\nPrint Assumptions {where[t]}.{t}.\n'
open('/tmp/A.v','w').write(src)
out=subprocess.run(['coqc','-Q','/verif/rocq/theories','Verif','/tmp/A.v'],capture_output=True,text=True)
print(out.stderr[:500])
res={}
for blk in out.stdout.split('@@@ ')[1:]:
    n,rest=blk.split('\n',1)
    ax=[] if 'Closed under' in rest else re.findall(r'^([A-Za-z_.]+)\s*(?::|$)',rest,re.M)
    res[n.strip()]=sorted({a.split('.')[-1] for a in ax if a not in('Axioms',)})
json.dump({t:[where[t],res[t]] for p,t in ths},open('/tmp/assum.json','w'),indent=0)
import collections
c=collections.Counter(tuple(v) for v in res.values()); print(c)
