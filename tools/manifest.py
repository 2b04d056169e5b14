"""Regenerates MANIFEST.json and rocq/_CoqProject from the sources (bookkeeping only)."""
import json, re, glob, os
root = os.path.dirname(os.path.dirname(os.path.abspath(__file__)))
vs = sorted(glob.glob(root + '/rocq/theories/**/*.v', recursive=True))
with open(root + '/rocq/_CoqProject', 'w') as f:
    f.write('-Q theories Verif\n')
    for v in vs:
        f.write(os.path.relpath(v, root + '/rocq') + '\n')
thms = {}
for v in vs:
    if '/Props/' not in v: continue
    for m in re.finditer(r'^Theorem\s+(C\d\d+)(_\w+)', open(v).read(), re.M):
        thms.setdefault(m.group(1), []).append(m.group(1) + m.group(2))
notes = json.load(open(root + '/tools/notes.json'))
claims = []
for line in open(root + '/properties.jsonl'):
    p = json.loads(line)['id']
    if p not in thms and p not in notes: continue
    ts = thms.get(p, [])
    st = notes.get(p, {}).get('status') or ('partial' if any(t.endswith('_partial') or t.endswith('_refuted') for t in ts) else 'proved')
    claims.append({'property': p, 'status': st, 'theorems': ts, 'note': notes.get(p, {}).get('note', '')})
json.dump({'claims': claims}, open(root + '/MANIFEST.json', 'w'), indent=1)
print({s: sum(c['status'] == s for c in claims) for s in ('proved', 'partial', 'not_applicable')}, 'theorems', sum(len(c['theorems']) for c in claims))
