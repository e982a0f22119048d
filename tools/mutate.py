#!/usr/bin/env python3
"""Mutation testing of the theorems.

usage: mutate.py FILE.json        run the mutations of FILE.json, print a report
Each mutation: {"file", "old", "new", "definition", "claim", "breaks": [ids]} and
optionally "also": [{"file", "old", "new"}], edits that restate lemmas between
model and theorems for the mutated model, so that the theorems have to fail on
their own.

A scratch copy of rocq/ is edited and rebuilt.  When a proof fails its lemma is
admitted in the scratch copy and the build goes on; in the end the theorems of
the Prop files that depend on an admitted lemma are the ones that failed.
"""
import json, os, re, subprocess, sys, shutil, glob, time
SRC = os.environ.get('MUT_SRC', '/tmp/mutsrc/rocq')  # a built checkout
WORK = os.environ.get('MUT_WORK', '/tmp/mut')
HEAD = re.compile(r'^\s*(?:Local |Global |#\[.*?\] )?(Lemma|Theorem|Corollary|Example|Fact|Remark|Instance|Definition|Fixpoint)\s+([\w\']+)')

def prepare():
    shutil.rmtree(WORK, ignore_errors=True)
    subprocess.run(['cp', '-a', SRC, WORK], check=True)

def using(work):
    """section variables used by each lemma, from the original files"""
    cache = os.environ.get('MUT_USING', '/tmp/mut_using.json')
    if os.path.exists(cache):
        return json.load(open(cache))
    res = {}
    for f in glob.glob(SRC + '/theories/*.v'):
        t = open(f).read()
        if not re.search(r'^Section', t, re.M):
            continue
        b = os.path.basename(f)
        d = '/tmp/mut_use'; os.makedirs(d, exist_ok=True)
        open(d + '/' + b, 'w').write('Set Suggest Proof Using.\n' + t)
        o = subprocess.run(['coqc', '-w', 'none', '-Q', SRC + '/theories', 'Verif', d + '/' + b], capture_output=True, text=True)
        for m in re.finditer(r'The proof of (\S+)\s+should start with one of the following commands:\s+(Proof using[^.]*)\.', o.stdout + o.stderr):
            res[b + ':' + m.group(1).strip()] = re.sub(r'\s+', ' ', m.group(2))
    json.dump(res, open(cache, 'w'))
    return res

def admit(path, line, use):
    """admit the lemma of [path] around [line]; returns its name"""
    L = open(path).read().split('\n')
    s = line - 1
    while s >= 0 and not HEAD.match(L[s]):
        s -= 1
    if s < 0:
        return None
    name = HEAD.match(L[s]).group(2)
    text = '\n'.join(L[s:])
    m = re.search(r'^\s*Proof\b[^.]*\.|\bProof\.', text, re.M)
    e = re.search(r'\b(Qed|Defined)\.', text)
    a = re.search(r'\bAdmitted\.', text)
    if not m or not e or (a and a.start() < e.start()):
        return None
    nl = text.find('\n', 0)
    # error before the proof starts: the statement itself broke
    if text[:m.start()].count('\n') + s + 1 > line:
        return ('statement', name)
    n = text[m.start():e.end()].count('\n')
    p = use.get(os.path.basename(path) + ':' + name, 'Proof') + '. Admitted.' + '\n' * n
    open(path, 'w').write('\n'.join(L[:s]) + ('\n' if s else '') + text[:m.start()] + p + text[e.end():])
    return ('proof', name)

def drop(path, line):
    """remove a declaration whose statement no longer type checks"""
    L = open(path).read().split('\n')
    s = line - 1
    while not HEAD.match(L[s]):
        s -= 1
    text = '\n'.join(L[s:])
    e = re.search(r'\b(Qed|Defined)\.', text)
    n = text[:e.end()].count('\n')
    rest = text[e.end():]
    name = HEAD.match(L[s]).group(2)
    rest = re.sub(r'^\s*Print Assumptions ' + re.escape(name) + r'\.', '', rest, flags=re.M)
    open(path, 'w').write('\n'.join(L[:s]) + ('\n' if s else '') + '\n' * n + rest)

def run(mut, use):
    prepare()
    t0 = time.time()
    p = WORK + '/theories/' + mut['file']
    t = open(p).read()
    if t.count(mut['old']) != 1:
        return {'error': 'old text occurs %d times' % t.count(mut['old'])}
    open(p, 'w').write(t.replace(mut['old'], mut['new']))
    for e in mut.get('also', []):
        q = WORK + '/theories/' + e['file']
        t = open(q).read()
        if t.count(e['old']) != 1:
            return {'error': 'also: old text occurs %d times' % t.count(e['old'])}
        open(q, 'w').write(t.replace(e['old'], e['new']))
    subprocess.run('coq_makefile -f _CoqProject -o Makefile', shell=True, cwd=WORK, capture_output=True)
    failed, dropped = [], []
    for rnd in range(200):
        o = subprocess.run("ulimit -v 12000000; nice make -k -j2 COQEXTRAFLAGS='-w none -set \"Default Timeout=100\"'", shell=True, cwd=WORK, capture_output=True, text=True)
        out = o.stdout + o.stderr
        if o.returncode == 0:
            break
        hits = {}
        for m in re.finditer(r'File "(\S*?theories/\w+\.v)", line (\d+), characters [\d-]+:\n(Error|.*\n?Error|Timeout)', out):
            hits.setdefault(os.path.basename(m.group(1)), int(m.group(2)))
        if not hits:
            return {'error': 'build failed without location', 'out': out[-2000:]}
        for b, l in hits.items():
            f = WORK + '/theories/' + b
            if b.startswith('Model') or b.startswith('Base'):
                return {'error': 'model does not compile', 'out': out[-1500:]}
            r = admit(f, l, use)
            if r is None:
                return {'error': 'cannot admit at %s:%d' % (b, l), 'out': out[-1500:], 'failed': failed}
            if r[0] == 'proof':
                failed.append(b[:-2] + '.' + r[1])
            else:
                drop(f, l); dropped.append(b[:-2] + '.' + r[1]); failed.append(b[:-2] + '.' + r[1])
    thms = []
    for f in sorted(glob.glob(WORK + '/theories/Prop*.v')):
        if not os.path.exists(f + 'o') or os.path.getmtime(f + 'o') < t0:
            continue
        for m in re.finditer(r'^Theorem\s+((C\d+)_\w+)', open(f).read(), re.M):
            thms.append((os.path.basename(f)[:-2], m.group(1)))
    q = ''.join('From Verif Require Import %s.\n' % m for m in sorted({a for a, _ in thms}))
    for a, b in thms:
        q += 'Goal True. idtac "THM %s". Abort.\nPrint Assumptions %s.%s.\n' % (b, a, b)
    open(WORK + '/q.v', 'w').write(q)
    o = subprocess.run('coqc -w none -Q theories Verif q.v', shell=True, cwd=WORK, capture_output=True, text=True)
    names = {x.split('.')[-1] for x in failed}
    dead, cur = [], None
    for line in (o.stdout + o.stderr).split('\n'):
        m = re.match(r'THM (\S+)', line)
        if m:
            cur = m.group(1)
        m = re.match(r'([\w\'.]+)( |$)', line)
        if m and cur and m.group(1).split('.')[-1] in names and cur not in dead:
            dead.append(cur)
    for x in failed:
        n = x.split('.')[-1]
        if re.match(r'C\d+_', n) and n not in dead and (n in [b for _, b in thms] or x in dropped) and x.startswith('Prop'):
            dead.append(n)
    q_ok = o.returncode == 0
    return {'failed_lemmas': failed, 'failed_theorems': dead, 'query_ok': q_ok, 'q_err': '' if q_ok else (o.stdout + o.stderr)[-500:]}

if __name__ == '__main__':
    muts = json.load(open(sys.argv[1]))
    use = using(WORK)
    for i, m in enumerate(muts):
        r = run(m, use)
        dead = set(t.split('_')[0] for t in r.get('failed_theorems', []))
        miss = [c for c in m['breaks'] if c not in dead]
        print(json.dumps({'n': i, 'edit': m['file'] + ': ' + m['definition'], 'miss': miss, **r}), flush=True)
        with open('/tmp/mut_results.jsonl', 'a') as g:
            g.write(json.dumps({'mut': m, 'miss': miss, 'result': r}) + '\n')
