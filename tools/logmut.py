#!/usr/bin/env python3
"""logmut.py RESULTS FROM [TIGHTENED.json]: append the results of mutate.py from
line FROM on (counted from 0) to seeded/LOG.jsonl.  TIGHTENED.json maps line
numbers to the theorems added or tightened because of that mutation."""
import json, os, sys
root = os.path.dirname(os.path.dirname(os.path.abspath(__file__)))
tight = json.load(open(sys.argv[3])) if len(sys.argv) > 3 else {}
with open(root + '/seeded/LOG.jsonl', 'a') as g:
    for n, line in enumerate(open(sys.argv[1])):
        if n < int(sys.argv[2]):
            continue
        x = json.loads(line); m = x['mut']; r = x['result']
        if 'error' in r:
            continue
        edit = m['file'] + ': ' + m['old'].strip() + '  ==>  ' + m['new'].strip()
        for e in m.get('also', []):
            edit += ' | also ' + e['file'] + ': ' + e['old'].strip() + '  ==>  ' + e['new'].strip()
        g.write(json.dumps({'definition': m['file'][:-2] + '.' + m['definition'], 'edit': edit,
            'claim_broken': ', '.join(m['breaks']) + ': ' + m['claim'],
            'theorems_failed': r['failed_theorems'], 'lemmas_failed': r['failed_lemmas'],
            'missed': x['miss'], 'theorems_tightened': tight.get(str(n), [])}) + '\n')
