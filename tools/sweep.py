"""Automatic bug sweep: for each definition of the model, one random small edit; the scratch copy is rebuilt up to its first failing proof.

usage: sweep.py SNAPSHOT SEED [files...]    (SNAPSHOT: a fully built copy of rocq/ outside /verif)
Caught edits go to /verif/seeded/LOG.jsonl (theorems_failed: the theorems that use the failing lemma, traced by name),
edits that build go to /tmp/work/sweep_survived.jsonl for inspection.  Works in /tmp/swp only."""
import json, os, random, re, shutil, subprocess, sys
SNAP, SEED, ONLY = sys.argv[1], int(sys.argv[2]), sys.argv[3:]
W = '/tmp/swp/rocq'; LOG = '/verif/seeded/LOG.jsonl'; SUR = '/tmp/work/sweep_survived.jsonl'
random.seed(SEED)
PAIRS = [('fadd', 'fsub'), ('fsub', 'fadd'), ('fmul', 'fdiv'), ('fdiv', 'fmul'), ('xadd', 'xsub'), ('xmul', 'xdiv'), ('xltb', 'xleb'), ('Fin 1', 'Fin 0'), ('Fin 0', 'Fin 1'), ('Fin 2', 'Fin 1'), ('Nat.ltb', 'Nat.leb'),
  ('Nat.eqb', 'Nat.ltb'), ('removelast', 'tl'), ('tl', 'removelast'), ('firstn', 'skipn'), ('skipn', 'firstn'), ('true', 'false'), ('xexp', 'xlog'), ('xlog', 'xexp'),
  ('xmin', 'xmax'), ('xmax', 'xmin'), ('&&', '||'), ('||', '&&'), ('xsum', 'xmaxl'), ('PInf', 'NInf'), ('NInf', 'PInf'), ('NaN', 'Fin 0'), ('xsquare', 'xsqrt'), ('xsqrt', 'xsquare'),
  ('negb ', ''), ('rev ', ''), ('map ', 'map (fun x => x) (* *) '), ('S n', 'n'), ('fst', 'snd'), ('snd', 'fst'), ('<?', '<=?'), ('<=?', '<?'), (' + ', ' - '), (' - ', ' + '), (' * ', ' + '), (' / ', ' * '),
  ('ln ', 'exp '), ('exp ', 'ln '), ('- 1', '- 2'), ('+ 1', '+ 2'), ('forallb', 'existsb'), ('existsb', 'forallb'), ('hd', 'last'), ('last', 'hd'), ('xabs ', ''), ('xneg ', ''), ('Some', 'fun _ => None (* *)'),
  ('ValueError', 'TypeError'), ('TypeError', 'ValueError'), ('IndexError', 'ValueError'), ('NotImplementedError', 'ValueError'), ('AssertionError', 'ValueError'),
  ('++ ', '++ rev '), ('loc', 'scale'), ('scale', 'loc'), ('low', 'high'), ('high', 'low'), ('alpha', 'beta'), ('beta', 'alpha'), ('logits', 'probs'), ('forward', 'inverse'), ('inverse', 'forward'),
  ('x_batch', 'x_event'), ('batch', 'event'), ('INR', 'INR (S O) * INR'), ('Rltb', 'Rleb'), ('Rleb', 'Rltb'), ('Rmin', 'Rmax'), ('Rmax', 'Rmin'), ('sinh', 'cosh'), ('cosh', 'sinh'), ('tanh', 'cosh'), ('axis 0', 'axis 1')]
def sh(c, t=2400):
    try: return subprocess.run(c, shell=True, cwd=W, capture_output=True, text=True, timeout=t)
    except subprocess.TimeoutExpired: return None
def sync():
    os.makedirs(W, exist_ok=True)
    keep = set()
    for root, _, fs in os.walk(SNAP):
        rel = os.path.relpath(root, SNAP); os.makedirs(os.path.join(W, rel), exist_ok=True)
        for f in fs:
            a, b = os.path.join(root, f), os.path.join(W, rel, f); keep.add(os.path.normpath(b)); st = os.stat(a)
            if not os.path.exists(b) or os.stat(b).st_mtime_ns != st.st_mtime_ns or os.stat(b).st_size != st.st_size: shutil.copy2(a, b)
    for root, _, fs in os.walk(W):
        for f in fs:
            if os.path.normpath(os.path.join(root, f)) not in keep: os.remove(os.path.join(root, f))
def strip(s): return re.sub(r'\(\*.*?\*\)', lambda m: re.sub(r'[^\n]', ' ', m.group()), s, flags=re.S)
def graph():
    uses, where = {}, {}
    for root, _, fs in os.walk(SNAP + '/theories'):
        for f in fs:
            if not f.endswith('.v'): continue
            s = strip(open(os.path.join(root, f)).read())
            for m in re.finditer(r'\b(?:Lemma|Theorem|Corollary|Fact|Example)\s+([\w\']+)(.*?)\b(?:Qed|Defined)\.', s, re.S):
                uses.setdefault(m.group(1), set()).update(re.findall(r"[\w']+", m.group(2)))
    rev = {}
    for a, us in uses.items():
        for u in us:
            if u in uses and u != a: rev.setdefault(u, set()).add(a)
    return rev
REV = graph()
def closure(n):
    seen, st = set(), [n]
    while st:
        x = st.pop()
        if x in seen: continue
        seen.add(x); st += REV.get(x, ())
    return sorted(x for x in seen if re.match(r'C\d+_', x))
def defs():
    out = []
    d = SNAP + '/theories/Model'
    done = [json.loads(l) for l in open(LOG)] + ([json.loads(l) for l in open(SUR)] if os.path.exists(SUR) else [])
    done = {w for l in done for w in re.findall(r"[\w']+", str(l['definition']))}
    for f in sorted(os.listdir(d)):
        if not f.endswith('.v') or (ONLY and f[:-2] not in ONLY): continue
        s = open(f'{d}/{f}').read(); t = strip(s)
        ms = list(re.finditer(r'^\s*(?:Definition|Fixpoint)\s+([\w\']+).*?\.(?=\s)', t, re.M | re.S))
        for m in ms:
            if m.group(1) in done: continue
            body0 = m.group().find(':=')
            if body0 < 0: continue
            a, b = m.start() + body0, m.end()
            cands = []
            for o, n in PAIRS:
                pat = (r'(?<![\w.])' if re.match(r'\w', o) else '') + re.escape(o) + (r"(?![\w'])" if re.search(r'\w$', o) else '')
                for q in re.finditer(pat, t[a:b]): cands.append((a + q.start(), a + q.end(), n))
            random.shuffle(cands)
            if cands: out.append((f, m.group(1), cands))
    random.shuffle(out)
    return out
for f, name, cands in defs():
    src = open(f'{SNAP}/theories/Model/{f}').read()
    for x, y, n in cands[:4]:
        sync()
        ls, le = src.rfind('\n', 0, x) + 1, src.find('\n', y)
        edit = f"{src[ls:le].strip()}  ==>  {(src[ls:x] + n + src[y:le]).strip()}"
        open(f'{W}/theories/Model/{f}', 'w').write(src[:x] + n + src[y:])
        r = sh(f'make theories/Model/{f}o')
        if r is None or r.returncode: continue          # ill-typed edit
        r = sh('nice make -j3')
        if r is not None and r.returncode == 0:
            open(SUR, 'a').write(json.dumps({'definition': name, 'file': f, 'edit': edit}) + '\n'); print('SURVIVED', f, name, '|', edit, flush=True); break
        e = re.findall(r'File "\./(theories/[^"]+)", line (\d+), characters (\d+)-\d+:\s*\nError', (r.stdout + r.stderr) if r else '')
        lem = 'timeout'
        if e:
            t = open(f'{W}/{e[0][0]}').read(); off = sum(len(l) + 1 for l in t.split('\n')[:int(e[0][1]) - 1]) + int(e[0][2])
            ns = re.findall(r"\b(?:Lemma|Theorem|Example|Corollary|Fact|Definition)\s+([\w']+)", t[:off]); lem = ns[-1] if ns else '?'
        if lem == 'timeout': print('NOERR', f, name, '|', edit, (r.stdout + r.stderr)[-300:] if r else '', flush=True); break
        thms = closure(lem)
        ids = sorted({q.split('_')[0] for q in thms})
        open(LOG, 'a').write(json.dumps({'definition': f'{name} (Model/{f})', 'edit': edit, 'claim_broken': ', '.join(ids), 'theorems_failed': thms, 'first_failing_proofs': [f'{e[0][0][9:]}:{lem}'], 'tightened': []}) + '\n')
        print('CAUGHT', f, name, '|', edit, '|', e[0][0][9:], lem, len(thms), flush=True); break
