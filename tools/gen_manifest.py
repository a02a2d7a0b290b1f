#!/usr/bin/env python3
"""Builds MANIFEST.json from the theorems named Cxx_* in rocq/theories/T*.v and tools/status.json."""
import json, re, glob, collections
th = collections.defaultdict(list)
for f in sorted(glob.glob('/verif/rocq/theories/T*.v')):
    for m in re.finditer(r'^(?:Theorem|Lemma|Corollary)\s+((C\d+)_\w+)', open(f).read(), re.M):
        th[m.group(2)].append(m.group(1))
st = json.load(open('/verif/tools/status.json'))
props = [json.loads(l)['id'] for l in open('/verif/properties.jsonl')]
claims = []
for p in props:
    if p in th and p in st:
        claims.append({"property": p, "status": st[p][0], "theorems": th[p], "note": st[p][1]})
    elif p in st and st[p][0] == 'not_applicable':
        claims.append({"property": p, "status": "not_applicable", "theorems": [], "note": st[p][1]})
    else:
        print('no claim yet:', p)
json.dump({"claims": claims}, open('/verif/MANIFEST.json', 'w'), indent=1)
print(len(claims), 'claims', sum(len(c['theorems']) for c in claims), 'theorems')
