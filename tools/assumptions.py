# Writes the table of section 6 of DESIGN.md: what Print Assumptions says of each theorem.
# Needs a finished build in rocq/.
import re, subprocess, glob, os, collections
os.chdir(os.path.join(os.path.dirname(__file__), '..', 'rocq'))
os.makedirs('/tmp/assump', exist_ok=True)
groups = collections.OrderedDict()
for f in sorted(glob.glob('theories/Prop*.v')):
    src = open(f).read()
    names = re.findall(r'^Print Assumptions (\w+)\.', src, re.M)
    out = subprocess.run(['coqc', '-Q', 'theories', 'Verif', '-o', '/tmp/assump/' + os.path.basename(f) + 'o', f], capture_output=True, text=True)
    if out.returncode: raise SystemExit(f + '\n' + out.stderr)
    parts = re.split(r'^(Closed under the global context|Axioms:)$', out.stdout, flags=re.M)[1:]
    heads, bodies = parts[0::2], parts[1::2]
    assert len(heads) == len(names), (f, len(heads), len(names))
    for n, h, b in zip(names, heads, bodies):
        ax = () if h.startswith('Closed') else tuple(sorted(set(x.split('.')[-1] for x in re.findall(r'^([A-Za-z_][\w.]*)\s*(?::|$)', b, re.M))))
        groups.setdefault(ax, []).append(n)
res = ['## 6. What Print Assumptions lists\n', '(Generated by `tools/assumptions.py`.)\n']
for ax in sorted(groups, key=lambda a: (len(a), a)):
    res.append('**' + (', '.join(f'`{a}`' for a in ax) or 'nothing (closed under the global context)') + f'** ({len(groups[ax])} theorems): ' + ', '.join(sorted(groups[ax])) + '.\n')
p = '../DESIGN.md'
s = open(p).read()
i = s.find('## 6. What')
s = (s if i < 0 else s[:i]).rstrip() + '\n\n' + '\n'.join(res)
open(p, 'w').write(s)
