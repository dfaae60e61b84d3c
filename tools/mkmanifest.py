#!/usr/bin/env python3
"""Regenerate MANIFEST.json from the theorems in rocq/theories/Prop_*.v and tools/status.tsv.

status.tsv lines: property <TAB> status <TAB> note"""
import glob, json, os, re
root = os.path.dirname(os.path.dirname(os.path.abspath(__file__)))
thms = {}
for f in sorted(glob.glob(os.path.join(root, 'rocq/theories/Prop_*.v'))):
    for m in re.finditer(r'^\s*Theorem\s+((C\d+)_\w+)', open(f).read(), re.M):
        thms.setdefault(m.group(2), []).append(m.group(1))
claims = []
for line in open(os.path.join(root, 'tools/status.tsv')):
    line = line.rstrip('\n')
    if not line:
        continue
    pid, status, note = line.split('\t')
    claims.append({"property": pid, "status": status, "theorems": thms.pop(pid, []), "note": note})
if thms:
    print('no status line for', sorted(thms))
claims.sort(key=lambda c: c["property"])
with open(os.path.join(root, 'MANIFEST.json'), 'w') as o:
    o.write('{"claims": [\n' + ',\n'.join(json.dumps(c) for c in claims) + '\n]}\n')
