#!/usr/bin/env python3
"""Rebuild the theorem list at the end of DESIGN.md (each with what Print
Assumptions says) from the build: run after make in rocq/."""
import glob, os, re, subprocess, sys, tempfile
root = os.path.dirname(os.path.dirname(os.path.abspath(__file__)))
th = os.path.join(root, 'rocq/theories')
rows = []
for f in sorted(glob.glob(th + '/P_*.v')):
    m = os.path.basename(f)[:-2]
    for t in re.findall(r'^\s*Theorem\s+(C\d+_\w+)', open(f).read(), re.M):
        rows.append((m, t))
src = ''.join('From Verif Require %s.\n' % m for m in sorted({m for m, _ in rows}))
src += ''.join('Goal True. idtac "@@ %s". exact I. Qed.\nPrint Assumptions Verif.%s.%s.\n' % (t, m, t) for m, t in rows)
d = tempfile.mkdtemp()
open(d + '/A.v', 'w').write(src)
out = subprocess.run(['coqc', '-Q', th, 'Verif', d + '/A.v'], capture_output=True, text=True)
if out.returncode: sys.exit(out.stderr)
res = {}
for part in out.stdout.split('@@ ')[1:]:
    name, rest = part.split('\n', 1)
    res[name.strip()] = ' '.join(rest.split())
lines = ['| theorem | file | Print Assumptions |', '|---|---|---|']
for m, t in sorted(rows, key=lambda r: r[1]):
    lines.append('| `%s` | `%s.v` | %s |' % (t, m, res[t]))
p = root + '/DESIGN.md'
s = open(p).read()
mark = '<!-- theorem list, generated by tools/gen_design.py -->'
open(p, 'w').write(s[:s.index(mark) + len(mark)] + '\n\n' + '\n'.join(lines) + '\n')
print(len(rows), 'theorems;', sum(v != 'Closed under the global context' for v in res.values()), 'with axioms')
