import json,re,glob,subprocess
# notes per property; theorems harvested from *_props.v names Cnn_
notes=json.load(open('/verif/notes.json'))
th={}
for f in sorted(glob.glob('/verif/rocq/theories/*_props.v')):
    for m in re.finditer(r'^(?:Theorem|Corollary)\s+(C\d\d+_\w+)',open(f).read(),re.M):
        n=m.group(1); th.setdefault(n.split('_')[0],[]).append(n)
claims=[]
for l in open('/verif/properties.jsonl'):
    i=json.loads(l)['id']
    n=notes.get(i,{})
    t=th.get(i,[])
    if not t and n.get('status')!='not_applicable': continue
    st=n.get('status','partial' if all(x.endswith('_partial') for x in t) else 'proved')
    claims.append({"property":i,"status":st,"theorems":t,"note":n.get('note','')})
json.dump({"claims":claims},open('/verif/MANIFEST.json','w'),indent=1)
print(len(claims))
