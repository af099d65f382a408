#!/usr/bin/env python3
"""Regenerates /verif/MANIFEST.json from the table below, keeping only theorems that exist in theories/."""
import json,re,glob,os
names=set()
for f in glob.glob('/verif/rocq/theories/*.v'):
    names|=set(re.findall(r'^\s*(?:Theorem|Lemma|Corollary|Example)\s+([A-Za-z0-9_\']+)',open(f).read(),re.M))
C={}
def c(p,status,ths,note): C[p]=(status,ths.split(),note)
exec(open('/verif/tools/manifest_data.py').read())
ids=[json.loads(l)['id'] for l in open('/verif/properties.jsonl')]
out=[]
for i in ids:
    if i in C:
        s,t,n=C[i]
        miss=[x for x in t if x not in names]
        if miss: print('MISSING',i,miss)
        out.append(dict(property=i,status=s,theorems=[x for x in t if x in names],note=n))
    else: print('no claim yet',i)
json.dump({"claims":out},open('/verif/MANIFEST.json','w'),indent=1)
