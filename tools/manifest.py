#!/usr/bin/env python3
"""Writes MANIFEST.json from the claims listed here; checks that every named
theorem exists in rocq/theories."""
import json, re, pathlib, sys
root = pathlib.Path(__file__).resolve().parent.parent
claims = []
def c(pid, status, theorems, note):
    claims.append(dict(property=pid, status=status, theorems=theorems.split(), note=note))
exec((root / 'tools' / 'claims.py').read_text())
src = ''.join(p.read_text() for p in sorted((root / 'rocq' / 'theories').glob('*.v')))
names = set(re.findall(r'^(?:Theorem|Lemma)\s+(\w+)', src, re.M))
bad = [t for d in claims for t in d['theorems'] if t not in names]
if bad: sys.exit('missing theorems: ' + ' '.join(bad))
used = {t for d in claims for t in d['theorems']}
prop = ''.join(p.read_text() for p in (root / 'rocq' / 'theories').glob('Prop*.v'))
extra = [t for t in re.findall(r'^Theorem\s+(\w+)', prop, re.M) if t not in used]
if extra: print('theorems not in the manifest:', *extra)
(root / 'MANIFEST.json').write_text(json.dumps({'claims': claims}, indent=1) + '\n')
print(len(claims), 'claims')
