#!/usr/bin/env python3
"""Regenerates MANIFEST.json from the Properties*.v files and the notes below."""
import re,glob,json
notes=json.load(open('/verif/notes.json'))
th={}
for f in sorted(glob.glob('/verif/rocq/theories/Properties*.v')):
    for m in re.finditer(r'^Theorem\s+((C\d\d)\w*)',open(f).read(),re.M):
        th.setdefault(m.group(2),[]).append(m.group(1))
claims=[]
for l in open('/verif/properties.jsonl'):
    i=json.loads(l)['id']
    n=notes.get(i,{})
    if i in th:
        claims.append(dict(property=i,status=n.get('status','proved'),theorems=th[i],note=n.get('note','')))
json.dump({"claims":claims},open('/verif/MANIFEST.json','w'),indent=1)
print(len(claims))
