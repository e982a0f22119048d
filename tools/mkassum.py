#!/usr/bin/env python3
"""Write ASSUMPTIONS.md: what Print Assumptions lists for every theorem of the
manifest.  Needs a built checkout (rocq/theories/*.vo).  With names of Prop files
as arguments only those are read again."""
import json, re, subprocess, glob, os, sys
os.chdir('/verif/rocq')
man = json.load(open('/verif/MANIFEST.json'))
where = {}
for f in sorted(glob.glob('theories/Prop*.v')):
    for t in re.findall(r'^(?:Theorem|Corollary|Lemma)\s+(\w+)', open(f).read(), re.M):
        where[t] = os.path.basename(f)[:-2]
byfile = {}
for c in man['claims']:
    for t in c['theorems']:
        byfile.setdefault(where[t], []).append(t)
res = {}
if sys.argv[1:]:
    old = open('/verif/ASSUMPTIONS.md').read()
    full = dict(re.findall(r'^\* \*\*(\w)\*\* = `([^`]*)`', old, re.M))
    for t, a in re.findall(r'^\| \w+ \| `(\w+)` \| [\w.]+ \| ([^|]*) \|$', old, re.M):
        res[t] = [] if a == 'none' else [full[x] for x in a.split()]
    byfile = {m: ts for m, ts in byfile.items() if m in sys.argv[1:]}
for m, ts in byfile.items():
    src = 'From Verif Require %s.\n' % m
    for t in ts:
        src += 'Goal True. idtac "@@ %s". exact I. Qed.\nPrint Assumptions %s.%s.\n' % (t, m, t)
    open('/tmp/assum.v', 'w').write(src)
    out = subprocess.run(['coqc', '-w', 'none', '-Q', 'theories', 'Verif', '/tmp/assum.v'],
                         capture_output=True, text=True, timeout=900)
    assert out.returncode == 0, out.stderr
    cur = None
    for l in out.stdout.splitlines():
        if l.startswith('@@ '):
            cur = l[3:].strip(); res[cur] = []
        elif l.startswith('Closed under'):
            pass
        else:
            g = re.match(r'^([A-Za-z_][\w.]*)\s*(:|$)', l)
            if g and g.group(1) != 'Axioms':
                res[cur].append(g.group(1))
names = sorted({a for v in res.values() for a in v})
ab = {a: 'ABCDEFGHIJKLMNOP'[i] for i, a in enumerate(names)}
with open('/verif/ASSUMPTIONS.md', 'w') as f:
    f.write('# What `Print Assumptions` lists for each theorem\n\n'
            'Generated by `tools/mkassum.py` from the compiled files. Every entry is an axiom of the\n'
            'Coq standard library; "none" means closed under the global context.\n\n')
    for a in names:
        f.write('* **%s** = `%s`\n' % (ab[a], a))
    f.write('\n| claim | theorem | file | axioms |\n|---|---|---|---|\n')
    for c in man['claims']:
        for t in c['theorems']:
            f.write('| %s | `%s` | %s.v | %s |\n' % (c['property'], t, where[t],
                    ' '.join(sorted(ab[a] for a in res[t])) or 'none'))
