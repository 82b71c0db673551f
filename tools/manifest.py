"""Write MANIFEST.json: theorems are collected from theories/Prop_*.v by their C.. prefix."""
import json, os, re, glob

ROOT = os.path.join(os.path.dirname(os.path.abspath(__file__)), '..')
thms = {}
for p in sorted(glob.glob(os.path.join(ROOT, 'rocq/theories/Prop_*.v'))):
    for m in re.finditer(r'^Theorem ((C\d+)_\w+)', open(p).read(), flags=re.M):
        thms.setdefault(m.group(2), []).append(m.group(1))

STATUS = json.load(open(os.path.join(ROOT, 'tools/status.json')))
claims = []
for line in open(os.path.join(ROOT, 'properties.jsonl')):
    i = json.loads(line)['id']
    st, note = STATUS.get(i, ['partial', 'not yet proved'])
    if i not in thms and st == 'proved':
        raise SystemExit('no theorem for ' + i)
    claims.append({'property': i, 'status': st, 'theorems': thms.get(i, []), 'note': note})
json.dump({'claims': claims}, open(os.path.join(ROOT, 'MANIFEST.json'), 'w'), indent=1)
print({s: sum(c['status'] == s for c in claims) for s in ('proved', 'partial', 'not_applicable')},
      sum(len(c['theorems']) for c in claims), 'theorems')
