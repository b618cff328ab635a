#!/usr/bin/env python3
"""Write MANIFEST.json: theorems are found in theories/Props*.v by the C-number prefix of their names."""
import json,re,glob,os
root=os.path.dirname(os.path.dirname(os.path.abspath(__file__)))
props=[json.loads(l) for l in open(root+'/properties.jsonl')]
thms={}
for f in sorted(glob.glob(root+'/rocq/theories/Props*.v')):
    for m in re.finditer(r'^ *(?:Theorem|Example|Corollary|Lemma) (C\d\d)_(\w+)',open(f).read(),re.M):
        if m.group(0).split()[0]!='Example':
            thms.setdefault(m.group(1),[]).append(m.group(1)+'_'+m.group(2))
notes=json.load(open(root+'/tools/notes.json'))
out=[]
for p in props:
    i=p['id']; n=notes.get(i,{})
    t=thms.get(i,[])
    st=n.get('status') or ('proved' if t else 'partial')
    out.append({"property":i,"status":st,"theorems":t,"note":n.get('note','' if t else 'not yet proved')})
json.dump({"claims":out},open(root+'/MANIFEST.json','w'),indent=1)
print(sum(1 for o in out if o['theorems']),'of',len(out))
