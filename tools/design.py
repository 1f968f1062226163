#!/usr/bin/env python3
# regenerates section 5 of DESIGN.md (theorems and axioms) from MANIFEST.json and /tmp/assum.json (output of Print Assumptions)
import json
m=json.load(open('/verif/MANIFEST.json')); a=json.load(open('/tmp/assum.json'))
T={json.loads(l)['id']:json.loads(l)['title'] for l in open('/verif/properties.jsonl')}
s='## 5. Theorems and what `Print Assumptions` lists\n\n'
s+='"-" means "Closed under the global context".  R4 = the four axioms under the standard library reals and classical logic used with them: '
s+='`ClassicalDedekindReals.sig_not_dec`, `ClassicalDedekindReals.sig_forall_dec`, `FunctionalExtensionality.functional_extensionality_dep`, `Classical_Prop.classic`.  R2 = `sig_forall_dec` and `functional_extensionality_dep` only.\n\n| property | theorem (file) | axioms |\n|---|---|---|\n'
for c in m['claims']:
    for i,t in enumerate(c['theorems']):
        f,ax=a[t]
        x={0:'-',4:'R4',2:'R2'}.get(len(ax),', '.join(ax))
        s+=f"| {c['property']+' '+T[c['property']] if i==0 else ''} | {t} ({f}) | {x} |\n"
d=open('/verif/DESIGN.md').read()
i=d.find('## 5. ')
d=(d[:i] if i>=0 else d.rstrip()+'\n\n')+s
open('/verif/DESIGN.md','w').write(d)
