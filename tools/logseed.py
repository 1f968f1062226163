#!/usr/bin/env python3
# usage: logseed.py muts.json results.jsonl : (re)writes the lines of seeded/LOG.jsonl for these edits
import json,re,sys
muts={m['id']:m for m in json.load(open(sys.argv[1]))}
res={}
for l in open(sys.argv[2]):
    d=json.loads(l); res[d['id']]=d
p='/verif/seeded/LOG.jsonl'
lines=[l for l in open(p).read().split('\n') if l.strip()]
old={json.loads(l).get('id'):json.loads(l) for l in lines}
keep=[l for l in lines if json.loads(l).get('id') not in muts or json.loads(l).get('id') not in res]
for i,m in muts.items():
    if i not in res or 'error' in res[i]: print('no result',i); continue
    d=res[i]; claims=re.findall(r'C\d\d',m['claim'])
    th=[t for t in d['unproved'] if t[:3] in claims]
    if d['rc']==0: print('UNDETECTED',i,m['edit'])
    elif not th: print('no theorem of the claim',i,m['claim'],d['fails'])
    keep.append(json.dumps(dict(id=i,file=m['file'],definition=m['definition'],edit=m['edit'],claim_broken=m['claim'],failed_lemma=d['fails'],theorems_failed=th,tightened=old.get(i,{}).get('tightened',[]))))
open(p,'w').write('\n'.join(keep)+'\n'); print(len(keep))
