#!/usr/bin/env python3
"""Write MANIFEST.json.  Theorem names are found by their property prefix
(C07_..., C44_...) in rocq/theories/Props*.v; the status of each property and
its note are given here."""
import json, re, glob, collections
ROOT = '/verif/'
STATUS = {}
exec(open(ROOT + 'tools/status.py').read())
thms = collections.defaultdict(list)
for f in sorted(glob.glob(ROOT + 'rocq/theories/Props*.v')):
    for m in re.finditer(r'^\s*(?:Theorem|Lemma|Corollary)\s+((C\d+)_\w+)', open(f).read(), re.M):
        thms[m.group(2)].append(m.group(1))
claims = []
for l in open(ROOT + 'properties.jsonl'):
    c = json.loads(l)['id']
    if c in STATUS:
        st, note = STATUS[c]
        assert thms[c] or st == 'not_applicable', c
        claims.append({"property": c, "status": st, "theorems": thms[c], "note": note})
    else:
        assert not thms[c], (c, thms[c])
json.dump({"claims": claims}, open(ROOT + 'MANIFEST.json', 'w'), indent=1)
print(len(claims), collections.Counter(c['status'] for c in claims), sum(len(c['theorems']) for c in claims))
