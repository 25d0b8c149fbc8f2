#!/usr/bin/env python3
"""Seeded-bug runs, one build per edit.  usage: seed1.py SPEC.json [names...]
As seed.py, but the rebuild is done once (make -k): the lemmas at which files stop are recorded, and the
property theorems reported are those whose proofs use such a lemma, found from the text of the development."""
import json, os, re, shutil, subprocess, sys, time
SRC = os.environ.get('SEEDSRC', '/verif/rocq')
OUT = '/tmp/seed_out'
CAP = int(os.environ.get('SEEDCAP', '1500'))
HEAD = re.compile(r'^\s*(?:Local |Global )?(Lemma|Theorem|Example|Corollary|Fact|Remark|Instance|Definition|Fixpoint|Record|Inductive|Ltac)\s+([\w\']+)', re.M)

def graph(d):
    G = {}
    P = set()
    for f in os.listdir(d):
        if not f.endswith('.v') or f.startswith('zz'): continue
        t = open(d + '/' + f).read()
        hs = list(HEAD.finditer(t))
        for a, b in zip(hs, hs[1:] + [None]):
            txt = t[a.start():(b.start() if b else len(t))]
            G.setdefault(a.group(2), set()).update(re.findall(r"[A-Za-z_][\w']*", txt))
            if f.startswith('P_') and a.group(1) in ('Theorem',): P.add(a.group(2))
    return G, P

def affected(G, P, names):
    bad = set(names)
    rev = {}
    for n, us in G.items():
        for u in us:
            if u in G and u != n: rev.setdefault(u, set()).add(n)
    todo = list(bad)
    while todo:
        n = todo.pop()
        for m in rev.get(n, ()):
            if m not in bad: bad.add(m); todo.append(m)
    return sorted(bad & P)

def lemma_at(path, line):
    L = open(path).read().split('\n')
    for i in range(line - 1, -1, -1):
        m = HEAD.match(L[i])
        if m: return m.group(2)
    return '?'

def run(e):
    d = '/tmp/seed_' + e['name']
    shutil.rmtree(d, ignore_errors=True)
    subprocess.check_call(['cp', '-a', SRC, d])
    p = d + '/theories/' + e['file']
    t = open(p).read()
    n = t.count(e['old'])
    if n != e.get('count', 1): return {'name': e['name'], 'error': 'pattern found %d times' % n}
    G, P = graph(d + '/theories')
    open(p, 'w').write(t.replace(e['old'], e['new']))
    cmd = 'exec timeout -k 5 %d make -k -j%s COQEXTRAFLAGS=\'-set "Default Timeout=240"\' 2>&1' % (CAP, os.environ.get('SEEDJ', '2'))
    pr = subprocess.run(cmd, shell=True, cwd=d, stdout=subprocess.PIPE, stderr=subprocess.STDOUT, text=True)
    out = pr.stdout
    errs = re.findall(r'File "\./(theories/\w+\.v)", line (\d+), characters [\d-]+:\n(?:In environment|Error)', out)
    cuts = []
    for f, l in errs: cuts.append(f[9:] + ':' + lemma_at(d + '/' + f, int(l)))
    failed = affected(G, P, [c.split(':')[1] for c in cuts])
    r = {'name': e['name'], 'cuts': cuts, 'failed': failed, 'complete': pr.returncode == 0, 'capped': pr.returncode in (124, 137)}
    if pr.returncode != 0 and not cuts: r['error'] = out[-400:]
    shutil.rmtree(d, ignore_errors=True)
    return r

def main():
    spec = json.load(open(sys.argv[1]))
    want = sys.argv[2:]
    os.makedirs(OUT, exist_ok=True)
    for e in spec:
        if want and e['name'] not in want: continue
        if os.path.exists('%s/%s.json' % (OUT, e['name'])) and not want: continue
        t0 = time.time()
        try: r = run(e)
        except Exception as x: r = {'name': e['name'], 'error': repr(x)}
        r['secs'] = int(time.time() - t0)
        json.dump({'spec': e, 'result': r}, open('%s/%s.json' % (OUT, e['name']), 'w'), indent=1)
        print(e['name'], r.get('error') or (r['cuts'], len(r['failed']), r['complete'], r['capped']), r['secs'], flush=True)
if __name__ == '__main__': main()
