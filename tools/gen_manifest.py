#!/usr/bin/env python3
"""Write MANIFEST.json from the theorems Cnn_* found in rocq/theories/Properties_*.v
and the status/notes below."""
import glob, json, os, re
root = os.path.dirname(os.path.dirname(os.path.abspath(__file__)))
thms = {}
for f in sorted(glob.glob(root + '/rocq/theories/Properties_*.v')):
    for m in re.finditer(r'^Theorem\s+((C\d\d+)_\w+)', open(f).read(), re.M):
        thms.setdefault(m.group(2), []).append(m.group(1))
notes = {}
status = {}
exec(open(root + '/tools/manifest_notes.py').read())
ids = [json.loads(l)['id'] for l in open(root + '/properties.jsonl')]
claims = []
for i in ids:
    if i in thms or i in status:
        claims.append({"property": i, "status": status.get(i, "proved"),
                       "theorems": thms.get(i, []), "note": notes.get(i, "")})
json.dump({"claims": claims}, open(root + '/MANIFEST.json', 'w'), indent=1)
print(len(claims), "claims;", "missing:", [i for i in ids if i not in thms and i not in status])
