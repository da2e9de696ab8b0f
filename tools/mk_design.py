#!/usr/bin/env python3
"""Rewrites section 4 of DESIGN.md from the output of `coqc theories/Assumptions.v` (run after a complete build)."""
import re, subprocess, collections
names=re.findall(r'^Print Assumptions (\w+)\.', open('/verif/rocq/theories/Assumptions.v').read(), re.M)
out=subprocess.run(['coqc','-Q','theories','Verif','theories/Assumptions.v','-o','/tmp/Assumptions.vo'],cwd='/verif/rocq',capture_output=True,text=True).stdout
blocks=re.split(r'^(?=Closed under the global context|Axioms:)', out, flags=re.M)
blocks=[b for b in blocks if b.strip()]
assert len(blocks)==len(names),(len(blocks),len(names))
by=collections.OrderedDict()
for n,b in zip(names,blocks):
    ax=() if b.startswith('Closed') else tuple(sorted(re.findall(r'^([A-Za-z_][\w.]*)\s*(?::|$)', b[len('Axioms:'):], re.M)))
    by.setdefault(ax,[]).append(n)
d=open('/verif/DESIGN.md').read()
i=d.index('## 4. Assumptions per theorem')
s='## 4. Assumptions per theorem\n\nGenerated by `tools/mk_design.py` from `Print Assumptions` (file `Assumptions.v`, part of the build).\n\n'
for ax,ns in by.items():
    s+=('**Closed under the global context** (no axioms)' if not ax else '**Standard library axioms** '+', '.join('`%s`'%a for a in ax))+' -- %d theorems: '%len(ns)+', '.join('`%s`'%n for n in ns)+'.\n\n'
open('/verif/DESIGN.md','w').write(d[:i]+s)
print({a:len(n) for a,n in by.items()})
