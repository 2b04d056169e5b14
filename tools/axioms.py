"""Prints, as a Markdown table, what Print Assumptions lists for every theorem in Props (needs a built tree)."""
import re, glob, os, subprocess, sys, tempfile
root = os.path.dirname(os.path.dirname(os.path.abspath(__file__)))
from concurrent.futures import ThreadPoolExecutor
groups = {}
def axioms(v):
    ts = re.findall(r'^Theorem\s+(C\d\d+_\w+)', open(v).read(), re.M)
    if not ts: return []
    mod = 'Verif.Props.' + os.path.basename(v)[:-2]
    with tempfile.TemporaryDirectory() as d:
        f = d + '/ax.v'
        open(f, 'w').write('Require %s.\n' % mod + ''.join('Print Assumptions %s.%s.\n' % (mod, t) for t in ts))
        out = subprocess.run(['coqc', '-Q', root + '/rocq/theories', 'Verif', f], capture_output=True, text=True)
    if out.returncode: print(v, out.stderr, file=sys.stderr); return []
    blocks = re.split(r'^(?=Axioms:|Closed under)', out.stdout, flags=re.M)[1:]
    assert len(blocks) == len(ts), (v, len(blocks), len(ts))
    return [(t, frozenset(re.findall(r'^([A-Za-z_][\w.\']*)\s*(?::|$)', b.split('\n', 1)[1] if b.startswith('Axioms') else '', re.M))) for t, b in zip(ts, blocks)]
with ThreadPoolExecutor(3) as pool:
    for l in pool.map(axioms, sorted(glob.glob(root + '/rocq/theories/Props/*.v'))):
        for t, ax in l: groups.setdefault(ax, []).append(t)
for ax, ts in sorted(groups.items(), key=lambda p: -len(p[1])):
    print('* **%s** (%d theorems): %s\n' % (', '.join('`%s`' % a.split('.')[-1] for a in sorted(ax)) or 'none', len(ts), ', '.join(sorted(ts))))
