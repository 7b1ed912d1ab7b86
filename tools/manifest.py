#!/usr/bin/env python3
# Regenerates MANIFEST.json: theorem names are taken from theories/Prop*.v by their
# Cnn_ prefix; status and notes come from the table below.
import re,glob,json,os
root=os.path.dirname(os.path.dirname(os.path.abspath(__file__)))
thms={}
for f in sorted(glob.glob(root+'/rocq/theories/Prop*.v')):
    for m in re.finditer(r'^Theorem\s+((C\d\d)_\w+)',open(f).read(),re.M):
        thms.setdefault(m.group(2),[]).append(m.group(1))
status=json.load(open(root+'/tools/status.json'))
claims=[]
for l in open(root+'/properties.jsonl'):
    d=json.loads(l); i=d['id']
    st,note=status.get(i,["partial","not yet proved"])
    t=thms.get(i,[])
    if not t and st!='not_applicable': st,note='partial','no theorem yet; '+note
    claims.append({"property":i,"status":st,"theorems":t,"note":note})
json.dump({"claims":claims},open(root+'/MANIFEST.json','w'),indent=1)
print({s:sum(c['status']==s for c in claims) for s in ('proved','partial','not_applicable')}, 'no theorem:',[c['property'] for c in claims if not c['theorems']])
