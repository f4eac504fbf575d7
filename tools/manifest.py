#!/usr/bin/env python3
"""Regenerates MANIFEST.json: theorems are found by their Cnn_ prefix in rocq/theories;
status and notes come from tools/status.json."""
import json,re,glob,os
root=os.path.join(os.path.dirname(os.path.abspath(__file__)),'..')
thms={}
for f in sorted(glob.glob(root+'/rocq/theories/*.v')):
    for m in re.finditer(r'^\s*(?:Theorem|Lemma|Corollary|Proposition|Fact|Remark)\s+(C\d\d+_\w+)',open(f).read(),re.M):
        thms.setdefault(m.group(1).split('_')[0],[]).append(m.group(1))
st=json.load(open(root+'/tools/status.json'))
claims=[]
for l in open(root+'/properties.jsonl'):
    pid=json.loads(l)['id']
    t=thms.get(pid,[])
    if not t and pid not in st: continue
    s=st.get(pid,{})
    claims.append({"property":pid,"status":s.get("status","proved" if t else "not_applicable"),"theorems":t,"note":s.get("note","")})
json.dump({"claims":claims},open(root+'/MANIFEST.json','w'),indent=1)
print(len(claims),sum(len(c["theorems"]) for c in claims))
