#!/usr/bin/env python3
"""Regenerate MANIFEST.json: theorem names come from the Prop*.v files (prefix
Cxx_), statuses and notes from tools/notes.json."""
import json, re, glob, collections, os
root = os.path.dirname(os.path.dirname(os.path.abspath(__file__)))
thms = collections.OrderedDict()
for f in sorted(glob.glob(root + '/rocq/theories/Prop*.v')):
    for m in re.finditer(r'^Theorem\s+((C\d+)_\w+)', open(f).read(), re.M):
        thms.setdefault(m.group(2), []).append(m.group(1))
notes = json.load(open(root + '/tools/notes.json'))
claims = []
for line in open(root + '/properties.jsonl'):
    p = json.loads(line)['id']
    if p not in thms and p not in notes:
        continue
    n = notes.get(p, {})
    if p not in thms and n.get('status') != 'not_applicable':
        continue
    claims.append({"property": p, "status": n.get('status', 'proved'),
                   "theorems": thms.get(p, []), "note": n.get('note', '')})
json.dump({"claims": claims}, open(root + '/MANIFEST.json', 'w'), indent=1)
print(len(claims), 'claims', sum(len(c['theorems']) for c in claims), 'theorems')
