import json,sys,os
os.chdir(os.path.dirname(os.path.dirname(os.path.abspath(__file__))))
sys.path.insert(0,'tools')
from design_rows import ROWS
import design_rows
head=open('tools/design_head.md').read()
head=head.replace('@@MORE_MODELLED@@\n',getattr(design_rows,'MORE_MODELLED',''))
head=head.replace('@@NOT_MODELLED@@\n',getattr(design_rows,'NOT_MODELLED',''))
P=[json.loads(l) for l in open('properties.jsonl')]
M={c['property']:c for c in json.load(open('MANIFEST.json'))['claims']}
out=head
for p in P:
    m,how=ROWS[p['id']]
    th=', '.join('`'+t+'`' for t in M[p['id']]['theorems'])
    out+='| %s %s | %s | %s. %s |\n'%(p['id'],p['title'],m,how,th)
open('DESIGN.md','w').write(out)
