#!/usr/bin/env python3
"""Builds /verif/MANIFEST.json: theorem names are taken from the Properties*.v files
(names start with the property id); notes and statuses are in the table below."""
import glob,json,re
T={}
for f in sorted(glob.glob('/verif/rocq/theories/Properties*.v')):
    for m in re.finditer(r'^Theorem\s+(C\d+)(\w*)',open(f).read(),re.M):
        T.setdefault(m.group(1),[]).append(m.group(1)+m.group(2))
NOTES=json.load(open('/verif/tools/notes.json'))
claims=[]
for k in sorted(T,key=lambda k:int(k[1:])):
    n=NOTES.get(k,{})
    st='partial' if any(t.endswith('_partial') for t in T[k]) else 'proved'
    claims.append(dict(property=k,status=n.get('status',st),theorems=T[k],note=n.get('note','')))
for k,n in NOTES.items():
    if k not in T and n.get('status')=='not_applicable':
        claims.append(dict(property=k,status='not_applicable',theorems=[],note=n['note']))
json.dump({"claims":claims},open('/verif/MANIFEST.json','w'),indent=1)
print(len(claims),[c['property']+':'+c['status'] for c in claims])
