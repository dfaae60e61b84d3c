#!/usr/bin/env python3
"""Refresh the axiom list at the end of DESIGN.md from Print Assumptions (needs a built rocq/)."""
import glob, os, re, subprocess, tempfile
root = os.path.dirname(os.path.dirname(os.path.abspath(__file__)))
names = []
for f in sorted(glob.glob(os.path.join(root, 'rocq/theories/Prop_*.v'))):
    mod = os.path.basename(f)[:-2]
    for m in re.finditer(r'^Theorem\s+(C\d+_\w+)', open(f).read(), re.M):
        names.append((mod, m.group(1)))
mods = sorted({m for m, _ in names})
src = ''.join(f'From Verif Require {m}.\n' for m in mods)
for m, t in names:
    src += f'Goal True. idtac "@@{t}". Abort.\nPrint Assumptions Verif.{m}.{t}.\n'
d = tempfile.mkdtemp()
p = os.path.join(d, 'A.v')
open(p, 'w').write(src)
out = subprocess.run(['coqc', '-Q', os.path.join(root, 'rocq/theories'), 'Verif', p], capture_output=True, text=True)
if out.returncode:
    raise SystemExit(out.stderr)
groups = {}
for part in out.stdout.split('@@')[1:]:
    t, body = part.split('\n', 1)
    ax = [] if 'Closed under' in body else sorted(set(re.findall(r'^([A-Za-z_][\w.]*)(?= :|\n|$)', body.split('Axioms:')[1], re.M)))
    groups.setdefault(tuple(ax), []).append(t)
text = '<!-- axioms -->\n## Axioms\n\nFrom `Print Assumptions` of every property theorem (tools/axioms.py). All axioms are those of the standard library.\n\n'
for ax, ts in sorted(groups.items(), key=lambda g: len(g[0])):
    head = 'Closed under the global context (no axioms)' if not ax else 'Axioms ' + ', '.join('`%s`' % a for a in ax)
    text += f'* {head}: ' + (', '.join(ts) if ax else f'{len(ts)} theorems, all those not listed below') + '.\n'
q = os.path.join(root, 'DESIGN.md')
s = open(q).read().split('<!-- axioms -->')[0].rstrip() + '\n\n' + text
open(q, 'w').write(s)
