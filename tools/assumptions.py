#!/usr/bin/env python3
"""Generates rocq/theories/Assumptions.v: Print Assumptions for every theorem of the manifest."""
import json,re,glob,os
loc={}
for f in sorted(glob.glob('/verif/rocq/theories/*.v')):
    m=os.path.basename(f)[:-2]
    for n in re.findall(r'^\s*(?:Theorem|Lemma|Corollary|Example)\s+([A-Za-z0-9_\']+)',open(f).read(),re.M): loc.setdefault(n,m)
man=json.load(open('/verif/MANIFEST.json'))['claims']
ths=[];[ths.append(t) for c in man for t in c['theorems'] if t not in ths]
mods=sorted({loc[t] for t in ths})
s='(* Assumptions.v - generated by tools/assumptions.py.  Prints what every theorem of\n   the manifest rests on; each line of output must be "Closed under the global context". *)\n'
s+='From Verif Require '+' '.join(mods)+'.\n'
for t in ths: s+='Print Assumptions %s.%s.\n'%(loc[t],t)
open('/verif/rocq/theories/Assumptions.v','w').write(s); print(len(ths))
