#!/usr/bin/env python3
"""Regenerate MANIFEST.json and rocq/_CoqProject from theories/*.v and tools/status.json."""
import json,re,glob,os
root=os.path.dirname(os.path.dirname(os.path.abspath(__file__)))
props=[json.loads(l)['id'] for l in open(root+'/properties.jsonl')]
status=json.load(open(root+'/tools/status.json'))
th={}
for f in sorted(glob.glob(root+'/rocq/theories/Props*.v')):
    for m in re.finditer(r'^Theorem\s+(C\d\d+)_(\w+)',open(f).read(),re.M):
        th.setdefault(m.group(1),[]).append(m.group(1)+'_'+m.group(2))
claims=[]
for p in props:
    ts=th.get(p,[])
    if not ts and p not in status: continue
    s=status.get(p,{})
    st=s.get('status') or ('partial' if any(t.endswith(('_partial','_refuted')) for t in ts) else 'proved')
    claims.append({'property':p,'status':st,'theorems':ts,'note':s.get('note','')})
json.dump({'claims':claims},open(root+'/MANIFEST.json','w'),indent=1)
fs=sorted(glob.glob(root+'/rocq/theories/*.v'))
open(root+'/rocq/_CoqProject','w').write('-Q theories Verif\n'+''.join('theories/'+os.path.basename(f)+'\n' for f in fs))
print(len(claims),'claims;',[c['property'] for c in claims if not c['note']],'without note;',len(fs),'files')
