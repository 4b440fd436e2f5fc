#!/usr/bin/env python3
"""Regenerate MANIFEST.json from the theorem names in rocq/theories/Props*.v."""
import json,re,glob,os
root=os.path.dirname(os.path.dirname(os.path.abspath(__file__)))
notes=json.load(open(root+'/tools/notes.json'))
th={}
for f in sorted(glob.glob(root+'/rocq/theories/Props*.v')):
    for m in re.finditer(r'^Theorem (C\d\d)(\w*)',open(f).read(),re.M):
        th.setdefault(m.group(1),[]).append(m.group(1)+m.group(2))
claims=[]
for l in open(root+'/properties.jsonl'):
    pid=json.loads(l)['id']
    if pid in th:
        n=notes.get(pid,{})
        claims.append({"property":pid,"status":n.get("status","proved"),"theorems":th[pid],"note":n.get("note","")})
json.dump({"claims":claims},open(root+'/MANIFEST.json','w'),indent=1)
print(len(claims),"claims",sum(len(c['theorems']) for c in claims),"theorems")
