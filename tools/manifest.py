#!/usr/bin/env python3
"""Regenerates MANIFEST.json: theorem names are collected from Prop*.v by their
Cnn_ prefix; STATUS/NOTES give the verdict per property."""
import re,glob,json,os
root=os.path.dirname(os.path.dirname(os.path.abspath(__file__)))
th={}
for f in sorted(glob.glob(root+'/rocq/theories/Prop*.v')):
    for m in re.finditer(r'^Theorem (C\d\d)_(\w+)',open(f).read(),re.M):
        th.setdefault(m.group(1),[]).append(m.group(1)+'_'+m.group(2))
ns={}
exec(open(root+'/tools/notes.py').read(),ns)
claims=[]
for l in open(root+'/properties.jsonl'):
    p=json.loads(l)['id']
    st,note=ns['NOTES'].get(p,('partial','not yet proved: no theorem in this commit'))
    if not th.get(p) and st=='proved': st='partial'
    claims.append({'property':p,'status':st,'theorems':th.get(p,[]),'note':note})
json.dump({'claims':claims},open(root+'/MANIFEST.json','w'),indent=1)
print(sum(len(v) for v in th.values()),'theorems;',{s:sum(c['status']==s for c in claims) for s in ('proved','partial','not_applicable')})
