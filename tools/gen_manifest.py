#!/usr/bin/env python3
# Generates MANIFEST.json: theorem names are collected from rocq/theories/Prop*.v by their Cxx_ prefix.
import json, re, glob, os
root=os.path.join(os.path.dirname(os.path.abspath(__file__)),'..')
thms={}
for f in sorted(glob.glob(root+'/rocq/theories/Prop*.v')):
    for m in re.finditer(r'^Theorem (C(\d\d+)_\w+)',open(f).read(),re.M):
        thms.setdefault('C'+m.group(2),[]).append(m.group(1))
notes=json.load(open(root+'/tools/notes.json'))
claims=[]
for l in open(root+'/properties.jsonl'):
    i=json.loads(l)['id']
    st,note=notes.get(i,["partial","not modelled yet"])
    claims.append(dict(property=i,status=st,theorems=thms.get(i,[]),note=note))
    if not thms.get(i): print("no theorem for",i)
json.dump({"claims":claims},open(root+'/MANIFEST.json','w'),indent=1)
