"""Seeds bugs into a scratch copy of the model and reports which property theorems fail.

usage: mutate.py mutations.json   (list of {file, old, new, definition, edit, claim, expect:[ids]})
A failing proof is replaced by Admitted and the build goes on, so that the theorems which
depend on it are found exactly, through Print Assumptions.  Works in MUT_DIR (default /tmp/mut) only."""
import json, os, re, shutil, subprocess, sys, time
SRC = os.environ.get('MUT_SRC', '/verif/rocq'); D = os.environ.get('MUT_DIR', '/tmp/mut'); W = D + '/rocq'
LOG = '/verif/seeded/LOG.jsonl'

def admit(path, line, col):
    s = open(path).read()
    off = sum(len(l) + 1 for l in s.split('\n')[:line - 1]) + col
    starts = [m.start() for m in re.finditer(r'\bProof\b', s) if m.start() <= off]
    if not starts: return None
    st = starts[-1]
    m = re.compile(r'\b(Qed|Defined)\.').search(s, st)
    if not m or m.end() < off - 6: return None
    names = re.findall(r'\b(?:Lemma|Theorem|Example|Corollary|Fact|Remark)\s+([\w\']+)', s[:st])
    body = s[st:m.end()]
    s = s[:st] + 'Proof. Admitted.' + '\n' * body.count('\n') + s[m.end():]
    open(path, 'w').write(s)
    return names[-1] if names else '?'

def run(mu):
    shutil.rmtree(D, ignore_errors=True)
    t0 = time.time()
    shutil.copytree(SRC, W, copy_function=shutil.copy2)
    p = f"{W}/theories/{mu['file']}"
    s = open(p).read()
    assert s.count(mu['old']) == mu.get('count', 1), (mu['file'], mu['old'], s.count(mu['old']))
    open(p, 'w').write(s.replace(mu['old'], mu['new']))
    admitted, hard = [], []
    out = ''
    for it in range(400):
        r = subprocess.run('make -k -j4 2>&1', shell=True, cwd=W, capture_output=True, text=True)
        out += r.stdout
        errs = re.findall(r'File "\./(theories/[^"]+)", line (\d+), characters (\d+)-\d+:\s*\nError', r.stdout)
        if not errs: break
        prog = False
        for f, l, c in {e[0]: e for e in errs}.values():
            n = admit(f'{W}/{f}', int(l), int(c))
            if n is None: hard.append(f'{f}:{l}')
            else: admitted.append(f'{f.split("/",1)[1]}:{n}'); prog = True
        if not prog: break
    names = {a.split(':')[1] for a in admitted}
    failed = []
    for root, _, fs in os.walk(W + '/theories/Props'):
        for f in fs:
            if not f.endswith('.v'): continue
            src = open(os.path.join(root, f)).read()
            thms = re.findall(r'^Theorem\s+(C\d\d\w*)', src, re.M)
            vo = os.path.join(root, f)[:-2] + '.vo'
            if not os.path.exists(vo): failed += thms; continue
            if os.path.getmtime(vo) < t0: continue  # does not depend on the edited file
            q = D + '/q.v'
            with open(q, 'w') as g:
                g.write(f'From Verif Require Import Props.{f[:-2]}.\n')
                for t in thms: g.write(f'Print Assumptions {t}.\n')
            r = subprocess.run(f'coqc -w none -Q theories Verif {q}', shell=True, cwd=W, capture_output=True, text=True)
            blocks = re.split(r'^(?=Axioms:|Closed under)', r.stdout, flags=re.M)[1:]
            assert len(blocks) == len(thms), (f, len(blocks), len(thms), r.stderr)
            for t, b in zip(thms, blocks):
                ax = {x.split('.')[-1] for x in re.findall(r'^([\w\.\']+)\s*:', b, re.M)} | {x.split('.')[-1] for x in re.findall(r'^([\w\.\']+)$', b, re.M)}
                if ax & names or t in names: failed.append(t)
    res = {'definition': mu['definition'], 'edit': mu['edit'], 'claim_broken': mu['claim'],
           'theorems_failed': sorted(failed), 'first_failing_proofs': admitted[:12], 'tightened': mu.get('tightened', [])}
    if hard: res['statements_no_longer_typecheck'] = hard
    ok = all(any(t.startswith(e) for t in failed) for e in mu.get('expect', []))
    print('CAUGHT' if ok and failed else 'SURVIVED', mu['definition'], '|', mu['edit'], '|', sorted(failed), admitted[:6], hard, flush=True)
    return ok and bool(failed), res

if __name__ == '__main__':
    mus = json.load(open(sys.argv[1]))
    for mu in mus:
        try: ok, res = run(mu)
        except AssertionError as e:
            print('BAD', mu.get('definition'), e, flush=True); continue
        if ok:
            with open(LOG, 'a') as f: f.write(json.dumps(res) + '\n')
        else:
            with open('/tmp/work/survived.jsonl', 'a') as f: f.write(json.dumps(res) + '\n')
