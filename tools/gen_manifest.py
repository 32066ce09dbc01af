#!/usr/bin/env python3
"""tools/claims.txt -> MANIFEST.json and rocq/theories/Assumptions.v
claims.txt blocks:   C10 proved
                     @ thm1 thm2 ...
                     note text
                     (blank line)"""
import json, re, os
claims = []; cur = None
for blk in re.split(r'\n\s*\n', open('/verif/tools/claims.txt').read().strip()):
    ls = blk.split('\n'); pid, st = ls[0].split()
    th = []; note = []
    for l in ls[1:]:
        if l.startswith('@'): th += l[1:].split()
        else: note.append(l.strip())
    claims.append({"property": pid, "status": st, "theorems": th, "note": ' '.join(note)})
claims.sort(key=lambda c: c['property'])
json.dump({"claims": claims}, open('/verif/MANIFEST.json', 'w'), indent=1)
d = '/verif/rocq/theories/'
props = sorted(f for f in os.listdir(d) if f.endswith('Props.v'))
where = {}
for f in props:
    for m in re.finditer(r'^\s*(?:Theorem|Corollary)\s+(\w+)', open(d + f).read(), re.M): 
        assert m.group(1) not in where, 'duplicate ' + m.group(1)
        where[m.group(1)] = f[:-2]
out = '(** Print Assumptions for all the property theorems, one list per file (generated by tools/gen_manifest.py). *)\n'
out += 'From Verif Require Import ' + ' '.join(f[:-2] for f in props) + '.\n'
used = set()
for c in claims:
    for t in c['theorems']:
        assert t in where, 'missing theorem ' + t
        used.add(t)
for f in props:
    ts = [t for t in where if where[t] == f[:-2]]
    if not ts: continue
    out += 'Definition of_%s :=\n  (%s).\nPrint Assumptions of_%s.\n' % (f[:-2], ',\n   '.join('@' + t for t in ts), f[:-2])
for t in where:
    if t not in used: print('not in manifest:', t)
open(d + 'Assumptions.v', 'w').write(out)
print(len(claims), 'claims', len(where), 'theorems')
