#!/usr/bin/env python3
"""Regenerates MANIFEST.json from the theorem names in rocq/theories/*Props*.v and notes.json."""
import re,json,glob,os
root=os.path.dirname(os.path.dirname(os.path.abspath(__file__)))
thms={}
for f in sorted(glob.glob(root+'/rocq/theories/*Props*.v')):
    for m in re.finditer(r'^Theorem (C\d\d+)_(\w+)',open(f).read(),re.M):
        thms.setdefault(m.group(1),[]).append(m.group(1)+'_'+m.group(2))
notes=json.load(open(root+'/tools/notes.json'))
claims=[]
for l in open(root+'/properties.jsonl'):
    if not l.strip(): continue
    i=json.loads(l)['id']
    n=notes.get(i,{})
    t=thms.get(i,[])
    st=n.get('status') or ('partial' if (not t or all(x.endswith('_partial') for x in t)) else 'proved')
    if not t and 'status' not in n: st='partial'
    claims.append({'property':i,'status':st,'theorems':t,'note':n.get('note','' if t else 'not yet modelled')})
json.dump({'claims':claims},open(root+'/MANIFEST.json','w'),indent=1)
print(sum(1 for c in claims if c['status']=='proved'),'proved;',[c['property'] for c in claims if c['status']!='proved'])
