# Regenerates the part of DESIGN.md below the marker from properties.jsonl, MANIFEST.json, notes.json and the
# headers of the theories.
import json,re,glob,os
T='/verif/rocq/theories/'
mk='<!-- generated below by mkdesign.py -->'
src=open('/verif/DESIGN.md').read().split(mk)[0].rstrip()+'\n\n'+mk+'\n'
man={c['property']:c for c in json.load(open('/verif/MANIFEST.json'))['claims']}
mods={}
for f in sorted(glob.glob(T+'*_props.v')):
    for x in re.finditer(r'^(?:Theorem|Corollary)\s+(C\d\d+)_',open(f).read(),re.M):
        mods.setdefault(x.group(1),set()).add(os.path.basename(f)[:-len('_props.v')])
def deps(b,seen):
    if b in seen or not os.path.exists(T+b+'.v'): return seen
    seen.add(b)
    for m in re.finditer(r'From Verif Require (?:Import|Export)?([^.]*)\.',open(T+b+'.v').read()):
        for d in m.group(1).split(): deps(d,seen)
    return seen
out='\n## Per property: what is modelled, how it is proved, what is not modelled\n\n'
out+='Every theorem named in MANIFEST.json is reported by `Print Assumptions` as `Closed under the global context`: no axiom, '
out+='of the standard library or otherwise, is used.  The model files of a property are those its theorems depend on; the '
out+='code they model is cited in each definition (file:lines in /repo).\n'
for l in open('/verif/properties.jsonl'):
    p=json.loads(l); i=p['id']; c=man.get(i)
    out+='\n### %s %s\n\n'%(i,p['title'])
    if not c: out+='Not yet done.\n'; continue
    ms=sorted(mods.get(i,[])); d=set()
    for m in ms: deps(m+'_props',d)
    mf=sorted(x for x in d if x.endswith('_model') or x.endswith('_spec') or x in('Bytes','SoftFloat'))
    files=set()
    for x in mf:
        for g in re.finditer(r'\b([A-Za-z][\w-]*\.(?:h|cpp|thrift))\b',open(T+x+'.v').read()): files.add(g.group(1))
    nref=sum(t.endswith('_refuted') for t in c['theorems'])
    out+='* status: %s; %d theorems (%d of them refutations of a stronger claim)\n'%(c['status'],len(c['theorems']),nref)
    out+='* model and specification: %s\n'%', '.join('`%s.v`'%x for x in mf)
    if files: out+='* code modelled: %s\n'%', '.join(sorted(files))
    out+='* %s\n'%c['note']
open('/verif/DESIGN.md','w').write(src+out)
