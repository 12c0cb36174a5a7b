#!/usr/bin/env python3
"""Mutation tester for the Rocq model.  Runs only in scratch copies outside /verif.

usage: mutate.py BASE MUTANTS.json OUT.jsonl [jobs]
BASE is a built copy of /verif/rocq.  MUTANTS.json: list of
  {"id","file","old","new","def","edit","breaks":[property ids]}
For each mutant: copy BASE, apply the edit, recompile every dependent file in order.  When a proof no longer goes
through it is replaced by Admitted in the scratch copy (so that later files can still be examined); a theorem listed in
MANIFEST.json counts as failed when it is admitted or when Print Assumptions shows it rests on an admitted lemma.
"""
import sys, os, re, json, shutil, subprocess, collections
from concurrent.futures import ThreadPoolExecutor
BASE, MUT, OUT = sys.argv[1:4]
JOBS = int(sys.argv[4]) if len(sys.argv) > 4 else 4
CLAIMS = json.load(open('/verif/MANIFEST.json'))['claims']
THMS = [t for c in CLAIMS for t in c['theorems']]
FILES = [l.strip().split('/')[-1] for l in open(BASE + '/_CoqProject') if l.strip().endswith('.v')]

# a BASE whose _CoqProject lists only part of the files examines only the theorems of that part
THERE = set()
for _f in FILES:
    if _f.startswith('Properties_'): THERE |= set(re.findall(r'^Theorem (\w+)', open(BASE + '/theories/' + _f).read(), re.M))
THMS = [t for t in THMS if t in THERE]

def deps():
    out = subprocess.run(['coqdep', '-Q', '.', 'Verif'] + FILES, cwd=BASE + '/theories', capture_output=True, text=True).stdout
    d = {}
    for l in out.splitlines():
        m = re.match(r'(\S+)\.vo\b.*?: (.*)', l)
        if m:
            d[m.group(1) + '.v'] = {x[:-1] for x in m.group(2).split() if x.endswith('.vo') and '/' not in x}
    return d
DEPS = deps()
def dependents(f):
    s = {f}
    ch = True
    while ch:
        ch = False
        for g in FILES:
            if g not in s and DEPS.get(g, set()) & s:
                s.add(g); ch = True
    # topological order
    order, done = [], set()
    while len(order) < len(s):
        for g in FILES:
            if g in s and g not in done and not ((DEPS.get(g, set()) & s) - done):
                order.append(g); done.add(g)
    return order

HEAD = re.compile(r'^[ \t]*(?:Local |Global |#\[[a-z]*\] ?)*(Lemma|Theorem|Example|Corollary|Fact|Remark|Instance|Definition)\s+([A-Za-z_0-9\']+)', re.M)
QED = re.compile(r'(Qed|Defined)\s*\.')
def blank_comments(t):
    out = list(t); depth = 0; i = 0
    while i < len(t):
        if t.startswith('(*', i): depth += 1; out[i] = out[i+1] = ' '; i += 2; continue
        if t.startswith('*)', i) and depth: depth -= 1; out[i] = out[i+1] = ' '; i += 2; continue
        if depth and t[i] != '\n': out[i] = ' '
        i += 1
    return ''.join(out)
def stmt_end(b, i):
    m = re.compile(r'\.(?=\s|$)').search(b, i)
    while m and b[m.start()-1] == '.': m = re.compile(r'\.(?=\s|$)').search(b, m.end())
    return m.end() if m else len(b)
def admit(path, off):
    """admit the block around byte offset off; returns (name, kind)"""
    t = open(path).read(); b = blank_comments(t)
    best = None
    for m in HEAD.finditer(b):
        if m.start() > off: break
        best = m
    if not best: return None
    se = stmt_end(b, best.end())
    q = QED.search(b, se)
    nxt = HEAD.search(b, se)
    if best.group(1) == 'Definition' and (not q or (nxt and nxt.start() < q.start())): return None
    if not q or (nxt and nxt.start() < q.start()):
        # no proof block
        return None if off >= se else (best.group(2), 'statement')  and _delete(path, t, best.start(), se, best.group(2))
    if off > q.end(): return None
    if off < se: return _delete(path, t, best.start(), q.end(), best.group(2))
    kw = t[best.start():se]
    if best.group(1) in ('Fact', 'Remark'): pass
    t2 = t[:se] + ' Admitted.' + '\n' * t[se:q.end()].count('\n') + t[q.end():]
    open(path, 'w').write(t2)
    return (best.group(2), 'proof')
def _delete(path, t, a, e, name):
    open(path, 'w').write(t[:a] + '\n' * t[a:e].count('\n') + t[e:])
    return (name, 'statement')

def line_off(path, line, col):
    bs = open(path, 'rb').read().split(b'\n')
    bo = sum(len(x) + 1 for x in bs[:line - 1]) + col
    return len(open(path, 'rb').read()[:bo].decode('utf8', 'ignore'))

def run(mu):
    D = '/tmp/mutants/' + mu['id']
    shutil.rmtree(D, ignore_errors=True); shutil.copytree(BASE, D, symlinks=True)
    th = D + '/theories'
    p = th + '/' + mu['file']
    t = open(p).read()
    res = dict(mu)
    n = t.count(mu['old'])
    if n < 1 or (n > 1 and not mu.get('all')):
        res['status'] = 'bad edit: %d matches' % n; shutil.rmtree(D); return res
    open(p, 'w').write(t.replace(mu['old'], mu['new']))
    broken, status = [], 'ok'
    for f in dependents(mu['file']):
        tries = 0
        while True:
            tries += 1
            if tries > 150: status = 'gave up in ' + f; break
            try:
                r = subprocess.run(['coqc', '-Q', '.', 'Verif', f], cwd=th, capture_output=True, text=True, timeout=400)
                if r.returncode == 0: break
                ms = re.findall(r'line (\d+), characters (\d+)-(\d+):\n(?:Error|In environment|The|Unable|.)', r.stderr)
                locs = [(int(a), int(c)) for a, c in re.findall(r'line (\d+), characters (\d+)-\d+:\s*\n(?=Error)', r.stderr)]
                if not locs: status = 'no location in %s: %s' % (f, r.stderr[-300:]); break
                off = line_off(th + '/' + f, *locs[-1])
            except subprocess.TimeoutExpired:
                r = subprocess.run('timeout 400 coqc -time -Q . Verif %s' % f, shell=True, cwd=th, capture_output=True, text=True)
                cs = re.findall(r'^Chars (\d+) - (\d+)', r.stdout, re.M)
                if not cs: status = 'timeout in ' + f; break
                off = int(cs[-1][1]) + 2
            a = admit(th + '/' + f, off)
            if not a:
                status = 'definition error in %s at %d: %s' % (f, off, r.stderr[-300:]); break
            broken.append([f, a[0], a[1]])
        if status != 'ok': break
    res['broken_lemmas'] = broken
    if status == 'ok':
        props = [f for f in FILES if f.startswith('Properties_')]
        present = set()
        for f in props:
            present |= set(re.findall(r'^Theorem (\w+)', open(th + '/' + f).read(), re.M))
        src = 'From Verif Require ' + ' '.join(f[:-2] for f in props) + '.\n'
        where = {t: f[:-2] for f in props for t in re.findall(r'^Theorem (\w+)', open(th + '/' + f).read(), re.M)}
        for i, tm in enumerate(THMS):
            if tm in present:
                src += 'Goal True. idtac "@@@ %s". Abort.\nPrint Assumptions %s.%s.\n' % (tm, where[tm], tm)
        open(th + '/MutCheck.v', 'w').write(src)
        r = subprocess.run(['coqc', '-Q', '.', 'Verif', 'MutCheck.v'], cwd=th, capture_output=True, text=True)
        if r.returncode: status = 'check failed ' + r.stderr[-300:]
        failed = [tm for tm in THMS if tm not in present]
        names = {b[1] for b in broken}
        for sec in r.stdout.split('@@@ ')[1:]:
            tm = sec.split()[0]
            ax = re.findall(r'^([A-Za-z_][\w\'.]*)\s*(?::|$)', '\n'.join(sec.split('\n')[1:]), re.M)
            if tm in names or any(a.split('.')[-1] in names for a in ax): failed.append(tm)
        res['failed'] = sorted(set(failed), key=THMS.index)
        byc = {c['property']: [x for x in c['theorems'] if x in THERE] for c in CLAIMS}
        res['survivors'] = {c: [x for x in byc[c] if x not in failed] for c in mu['breaks'] if any(x not in failed for x in byc[c])}
    res['status'] = status
    if not mu.get('keep'): shutil.rmtree(D, ignore_errors=True)
    return res

muts = json.load(open(MUT))
with ThreadPoolExecutor(JOBS) as ex, open(OUT, 'a') as out:
    for res in ex.map(run, muts):
        out.write(json.dumps(res) + '\n'); out.flush()
        print(res['id'], res['status'], 'failed', len(res.get('failed', [])), 'survivors', res.get('survivors'), flush=True)
