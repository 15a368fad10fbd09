"""Regenerates /verif/MANIFEST.json from the theorem names in rocq/theories/Prop_*.v and tools/notes.json."""
import re, json, glob, collections, os
root = os.path.dirname(os.path.dirname(os.path.abspath(__file__)))
th = collections.defaultdict(list)
for f in sorted(glob.glob(root + '/rocq/theories/Prop_*.v')):
    for m in re.finditer(r'^Theorem ((C\d+)_\w+)', open(f).read(), re.M):
        th[m.group(2)].append(m.group(1))
notes = json.load(open(root + '/tools/notes.json'))
claims = []
for line in open(root + '/properties.jsonl'):
    i = json.loads(line)['id']
    n = notes.get(i, {})
    names = th.get(i, [])
    if not names and 'status' not in n:
        continue
    claims.append(dict(property=i, status=n.get('status', 'proved'), theorems=names, note=n.get('note', '')))
json.dump({'claims': claims}, open(root + '/MANIFEST.json', 'w'), indent=1, ensure_ascii=False)
print(len(claims), 'claims', sum(len(c['theorems']) for c in claims), 'theorems')
