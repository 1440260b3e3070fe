#!/usr/bin/env python3
# Source of /verif/MANIFEST.json (run: python3 tools/manifest.py)
import json,re,glob,os
here=os.path.dirname(os.path.dirname(os.path.abspath(__file__)))
C={}
def c(pid,status,theorems,note): C[pid]=dict(property=pid,status=status,theorems=theorems.split(),note=note)
exec(open(os.path.join(here,'tools','claims.py')).read())
src="".join(open(f).read() for f in glob.glob(here+'/rocq/theories/*.v'))
for k,v in C.items():
    for t in v['theorems']:
        if not re.search(r'(Theorem|Lemma|Corollary)\s+'+re.escape(t)+r'\b',src): print("MISSING",k,t)
ids=[json.loads(l)['id'] for l in open(here+'/properties.jsonl')]
no=[i for i in ids if i not in C]
if no: print("no claim yet:",*no)
json.dump({"claims":[C[k] for k in sorted(C)]},open(here+'/MANIFEST.json','w'),indent=1)
