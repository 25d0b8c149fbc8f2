#!/usr/bin/env python3
"""Seeded-bug runs.  usage: seed.py SPEC.json [names...]
SPEC.json: list of {name, file, definition, old, new, edit, claim}.  For each entry: copy the
development to a scratch directory, apply the edit to the model, rebuild.  Every proof that fails is
cut to Admitted (in the scratch copy only) so that the rest can be checked; at the end the property
theorems that depend on a cut proof are the ones that failed."""
import json, os, re, shutil, subprocess, sys, time
SRC = os.environ.get('SEEDSRC', '/verif/rocq')
OUT = '/tmp/seed_out'

def sh(cmd, cwd, t=3600):
    p = subprocess.run(cmd, shell=True, cwd=cwd, stdout=subprocess.PIPE, stderr=subprocess.STDOUT, text=True, timeout=t)
    return p.returncode, p.stdout

def cut(path, line):
    """replace the proof of the statement around [line] by Admitted; return its name"""
    L = open(path).read().split('\n')
    i = line - 1
    while i >= 0 and not re.match(r'\s*(Lemma|Theorem|Example|Corollary|Fact|Remark|Instance|Global Instance|Add Parametric)\b', L[i]): i -= 1
    if i < 0: return None
    name = re.match(r'\s*(?:Global )?(?:\w+)\s+([\w\']+)', L[i]).group(1)
    j = i
    while j < len(L) and not re.search(r'\b(Qed|Defined|Admitted)\.', L[j]): j += 1
    if j >= len(L) or j < line - 1: return None
    txt = '\n'.join(L[i:j+1])
    if 'Admitted.' in txt: return None
    k = txt.find('Proof.')
    if k < 0: k = txt.find('Proof ')
    if k < 0: return None
    L[i:j+1] = (txt[:k] + 'Admitted.').split('\n')
    open(path, 'w').write('\n'.join(L))
    return name

def run(e):
    d = '/tmp/seed_' + e['name']
    shutil.rmtree(d, ignore_errors=True)
    subprocess.check_call(['cp', '-a', SRC, d])
    p = d + '/theories/' + e['file']
    t = open(p).read()
    n = t.count(e['old'])
    if n != e.get('count', 1):
        return {'name': e['name'], 'error': 'pattern found %d times' % n}
    open(p, 'w').write(t.replace(e['old'], e['new']))
    cuts = []
    for rnd in range(60):
        rc, out = sh('make -k -j%s COQEXTRAFLAGS=\'-set "Default Timeout=240"\' 2>&1' % os.environ.get('SEEDJ', '2'), d)
        errs = re.findall(r'File "\./(theories/\w+\.v)", line (\d+), characters [\d-]+:\nError', out)
        if not errs:
            if rc != 0: return {'name': e['name'], 'error': 'build stopped: ' + out[-300:], 'cuts': cuts}
            break
        done = False
        fatal = None
        for f, l in errs:
            nm = cut(d + '/' + f, int(l))
            if nm: cuts.append(f[9:] + ':' + nm); done = True
            else: fatal = f + ':' + l
        if not done:
            return {'name': e['name'], 'error': 'no proof to cut at ' + str(fatal), 'cuts': cuts}
    # property theorems depending on a cut proof
    failed = []
    cutn = set(c.split(':')[1] for c in cuts)
    for f in sorted(os.listdir(d + '/theories')):
        if not (f.startswith('P_') and f.endswith('.v')): continue
        names = re.findall(r'^(?:Theorem|Example)\s+([\w\']+)', open(d + '/theories/' + f).read(), re.M)
        mod = f[:-2]
        q = 'From Verif Require Import %s.\n' % mod
        for nm in names: q += 'Goal True. idtac "@@ %s". Abort.\nPrint Assumptions %s.\n' % (nm, nm)
        open(d + '/theories/zz_q.v', 'w').write(q)
        rc, out = sh('coqc -Q theories Verif theories/zz_q.v', d)
        for part in out.split('@@ ')[1:]:
            nm = part.split('\n')[0].strip()
            if nm in cutn or any(re.search(r'\b' + re.escape(c) + r'\b', part) for c in cutn): failed.append(nm)
    shutil.rmtree(d, ignore_errors=True)
    return {'name': e['name'], 'cuts': cuts, 'failed': failed}

def main():
    spec = json.load(open(sys.argv[1]))
    want = sys.argv[2:]
    os.makedirs(OUT, exist_ok=True)
    for e in spec:
        if want and e['name'] not in want: continue
        t0 = time.time()
        try: r = run(e)
        except Exception as x: r = {'name': e['name'], 'error': repr(x)}
        r['secs'] = int(time.time() - t0)
        json.dump({'spec': e, 'result': r}, open('%s/%s.json' % (OUT, e['name']), 'w'), indent=1)
        print(e['name'], r.get('error') or (len(r['cuts']), r['failed']), r['secs'], flush=True)
if __name__ == '__main__': main()
