#!/usr/bin/env python3
"""usage: claim.py C01 proved "note" thm1 thm2 ...   (replaces the claim of that property in MANIFEST.json)"""
import json,sys
p='/verif/MANIFEST.json'
m=json.load(open(p))
pid,st,note,*th=sys.argv[1:]
c=[x for x in m['claims'] if x['property']!=pid]
c.append(dict(property=pid,status=st,theorems=th,note=note))
c.sort(key=lambda x:x['property'])
json.dump({'claims':c},open(p,'w'),indent=1)
