#!/usr/bin/env python3
"""Shows that an edit makes a property theorem false.  usage: witness.py [seed ...]
seeded/witness.json: list of {seed, theorem, imports, pre, proof}.  For each: the M_*.v and S_*.v files are copied,
the edit of seeded/batch*.json is applied, and a file with the STATEMENT of the theorem, copied from its P_ file,
negated, is compiled with the given script.  The same script is run on the unedited model and must fail there.
Results go to /tmp/wit_out; `witness.py --log` copies them to statement_shown_false in seeded/LOG.jsonl."""
import glob, json, os, re, shutil, subprocess, sys
V = '/verif'; T = V + '/rocq/theories'; OUT = '/tmp/wit_out'
os.makedirs(OUT, exist_ok=True)
def specs():
    d = {}
    for f in sorted(glob.glob(V + '/seeded/batch*.json')):
        for x in json.load(open(f)): d[x['name']] = x
    return d
def statement(thm):
    for f in glob.glob(T + '/P_*.v'):
        s = open(f).read()
        m = re.search(r'^Theorem %s\b(.*?)^Proof\.' % re.escape(thm), s, re.S | re.M)
        if m:
            head = re.sub(r'\(\*.*?\*\)', '', s[:m.start()], flags=re.S)
            opens = re.findall(r'^(?:(?:Local )?Open Scope [^.]*\.|Import [^.]*\.|Notation .*\.)$', head, re.M)
            st = m.group(1).strip()
            assert st.startswith(':'), 'binders before the colon: ' + thm
            return st[1:].strip().rstrip('.'), opens
    raise SystemExit('no theorem ' + thm)
def prepare(seed):
    d = '/tmp/wit_' + (seed or 'ORIG')
    if os.path.exists(d + '/done'):  # files added since the copy was made
        for f in sorted(os.listdir(T)):
            if re.match(r'[MS]_\w+\.v$', f) and not os.path.exists(d + '/' + f):
                shutil.copy(T + '/' + f, d); subprocess.run('timeout 300 coqc -Q . Verif ' + f, shell=True, cwd=d)
        if open(V + '/tools/W2.txt').read() != (open(d + '/W2.v').read() if os.path.exists(d + '/W2.v') else ''):
            shutil.copy(V + '/tools/W2.txt', d + '/W2.v'); subprocess.run('timeout 300 coqc -Q . Verif W2.v', shell=True, cwd=d)
        return d
    shutil.rmtree(d, ignore_errors=True); os.makedirs(d)
    fs = [f for f in os.listdir(T) if re.match(r'[MS]_\w+\.v$', f)]
    for f in fs: shutil.copy(T + '/' + f, d)
    t = open(T + '/L_Refute.v').read()
    open(d + '/W0.v', 'w').write(t[:t.index('(** C21: x0 = 3')]); fs.append('W0.v')
    for w in ('W1', 'W2'): shutil.copy(V + '/tools/' + w + '.txt', d + '/' + w + '.v'); fs.append(w + '.v')
    if seed:
        e = specs()[seed]; p = d + '/' + e['file']; t = open(p).read()
        assert t.count(e['old']) == e.get('count', 1), 'pattern'
        open(p, 'w').write(t.replace(e['old'], e['new']))
    open(d + '/_CoqProject', 'w').write('-Q . Verif\n' + '\n'.join(fs) + '\n')
    r = subprocess.run('coq_makefile -f _CoqProject -o Makefile && timeout 800 make -j3', shell=True, cwd=d, stdout=subprocess.PIPE, stderr=subprocess.STDOUT, text=True)
    if r.returncode: print(seed, 'MODEL DOES NOT BUILD', r.stdout[-600:]); return None
    open(d + '/done', 'w').write(''); return d
def attempt(d, w, i):
    st, opens = statement(w['theorem'])
    n = 'zz_%d' % i
    open('%s/%s.v' % (d, n), 'w').write(w['imports'] + ('\nFrom Verif Require Import W0 W1' + (' W2' if w.get('w2') else '') + '.\n' if w.get('w0') else '\n') + '\n'.join(opens) + '\n' + w.get('pre', '') +
        '\nTheorem broken : ~ (' + st + ').\nProof.\n' + w['proof'] + '\nQed.\nPrint Assumptions broken.\n')
    r = subprocess.run('timeout 100 coqc -Q . Verif %s.v' % n, shell=True, cwd=d, stdout=subprocess.PIPE, stderr=subprocess.STDOUT, text=True)
    return r.returncode == 0 and 'Closed under the global context' in r.stdout, r.stdout[-700:]
def main():
    W = json.load(open(V + '/seeded/witness.json'))
    if sys.argv[1:] == ['--log']:
        got = {}
        for f in glob.glob(OUT + '/*.json'):
            r = json.load(open(f))
            if r['false_after_edit'] and not r['false_before']: got.setdefault(r['seed'], set()).add(r['theorem'])
        L = [json.loads(l) for l in open(V + '/seeded/LOG.jsonl')]
        for l in L:
            if l['name'] in got: l['statement_shown_false'] = sorted(got[l['name']])
        open(V + '/seeded/LOG.jsonl', 'w').write(''.join(json.dumps(l) + '\n' for l in L))
        print(sum(bool(l.get('statement_shown_false')) for l in L), 'of', len(L)); return
    o = prepare(None)
    for i, w in enumerate(W):
        if sys.argv[1:] and w['seed'] not in sys.argv[1:]: continue
        d = prepare(w['seed'])
        if not d: continue
        a, ma = attempt(d, w, i); b, mb = attempt(o, w, i)
        json.dump(dict(seed=w['seed'], theorem=w['theorem'], false_after_edit=a, false_before=b), open('%s/%s__%s.json' % (OUT, w['seed'], w['theorem']), 'w'))
        print(w['seed'], w['theorem'], 'FALSE after edit' if a else 'NOT SHOWN', '(control ok)' if not b else '(CONTROL ALSO FALSE)', '' if a else ma, flush=True)
main()
