"""Write MANIFEST.json; fails if a listed theorem does not exist in rocq/theories."""
import json, re, glob, os
root = os.path.dirname(os.path.dirname(os.path.abspath(__file__)))
names = set()
for f in glob.glob(root + '/rocq/theories/*.v'):
    names |= set(re.findall(r'^\s*(?:Theorem|Lemma|Corollary)\s+([A-Za-z0-9_\']+)', open(f).read(), re.M))
claims = []
def C(pid, status, theorems, note=''):
    for t in theorems.split():
        assert t in names, (pid, t)
    claims.append(dict(property=pid, status=status, theorems=theorems.split(), note=note))
exec(open(root + '/tools/claims.py').read())
ids = [json.loads(l)['id'] for l in open(root + '/properties.jsonl')]
seen = [c['property'] for c in claims]
missing = [i for i in ids if i not in seen]
if missing: print('no claim for', missing)
assert len(seen) == len(set(seen)) and set(seen) <= set(ids)
json.dump({'claims': claims}, open(root + '/MANIFEST.json', 'w'), indent=1)
print(len(claims), 'claims')
