#!/usr/bin/env python3
"""Regenerate MANIFEST.json from tools/claims.json and the theorem names found in Properties_*.v"""
import json,re,glob,os
root=os.path.dirname(os.path.dirname(os.path.abspath(__file__)))
thms={}
for f in sorted(glob.glob(root+'/rocq/theories/Properties_*.v')):
    for n in re.findall(r'^(?:Theorem|Corollary) (C\d\d_\w+)',open(f).read(),re.M):
        thms.setdefault(n[:3],[]).append(n)
claims=json.load(open(root+'/tools/claims.json'))
out=[]
for l in open(root+'/properties.jsonl'):
    i=json.loads(l)['id']
    c=claims.get(i,{"status":"not_applicable","note":"not yet modelled"})
    out.append({"property":i,"status":c["status"],"theorems":thms.get(i,[]),"note":c["note"]})
json.dump({"claims":out},open(root+'/MANIFEST.json','w'),indent=1)
for o in out: print(o["property"],o["status"],len(o["theorems"]))
