#!/usr/bin/env python3
"""Writes MANIFEST.json from the theorem names found in *Props.v (prefix Cnn_) and the notes below."""
import json,re,glob,os
root=os.path.dirname(os.path.dirname(os.path.abspath(__file__)))
props=[json.loads(l) for l in open(root+'/properties.jsonl')]
thms={}
for f in sorted(glob.glob(root+'/rocq/theories/*Props.v')):
    for m in re.finditer(r'(?m)^Theorem\s+((C\d\d)_\w+)',open(f).read()):
        thms.setdefault(m.group(2),[]).append(m.group(1))
exec(open(root+'/tools/manifest_notes.py').read())
claims=[]
for p in props:
    i=p['id']; st,note=NOTES.get(i,('not_applicable','not yet modelled'))
    t=thms.get(i,[])
    if not t: st='not_applicable'; 
    claims.append({"property":i,"status":st,"theorems":t,"note":note})
json.dump({"claims":claims},open(root+'/MANIFEST.json','w'),indent=1)
from collections import Counter
print(Counter(c['status'] for c in claims))
