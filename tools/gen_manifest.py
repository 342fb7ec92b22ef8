#!/usr/bin/env python3
"""Regenerate MANIFEST.json from the theorem names in rocq/theories/P_*.v."""
import glob, json, os, re
root = os.path.dirname(os.path.dirname(os.path.abspath(__file__)))
names = {}
for f in sorted(glob.glob(root + '/rocq/theories/P_*.v')):
    for m in re.finditer(r'^\s*Theorem\s+(C\d+)_(\w+)', open(f).read(), re.M):
        names.setdefault(m.group(1), []).append(m.group(1) + '_' + m.group(2))
notes = {}
exec(open(root + '/tools/notes.py').read())
claims = []
for line in open(root + '/properties.jsonl'):
    p = json.loads(line)['id']
    th = names.get(p, [])
    note = notes.get(p, '')
    if not th:
        status = 'not_applicable' if note.startswith('NA:') else 'partial'
        if not note:
            note = 'Not yet proved.'
    elif any(t.endswith('_partial') or t.endswith('_refuted') for t in th):
        status = 'partial'
    else:
        status = 'proved'
    claims.append({'property': p, 'status': status, 'theorems': th, 'note': note})
json.dump({'claims': claims}, open(root + '/MANIFEST.json', 'w'), indent=1)
print({s: sum(c['status'] == s for c in claims) for s in ('proved', 'partial', 'not_applicable')},
      'no theorems:', [c['property'] for c in claims if not c['theorems']])
