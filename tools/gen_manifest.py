#!/usr/bin/env python3
"""Generate MANIFEST.json from the theorem names Cnn_* found in rocq/theories/Properties*.v plus notes below."""
import re,glob,json,os
root=os.path.dirname(os.path.dirname(os.path.abspath(__file__)))
thms={}
for f in sorted(glob.glob(root+'/rocq/theories/Properties*.v')):
    for m in re.finditer(r'^\s*Theorem\s+(C(\d\d)_\w+)',open(f).read(),re.M):
        thms.setdefault('C'+m.group(2),[]).append(m.group(1))
exec(open(root+'/tools/notes.py').read())   # STATUS, NOTES
props=[json.loads(l)['id'] for l in open(root+'/properties.jsonl')]
claims=[]
for p in props:
    if p not in thms: continue
    st=STATUS.get(p,'proved')
    claims.append(dict(property=p,status=st,theorems=thms[p],note=NOTES.get(p,'')))
json.dump({"claims":claims},open(root+'/MANIFEST.json','w'),indent=1)
print(len(claims),'claims; missing:',[p for p in props if p not in thms])
