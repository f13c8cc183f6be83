#!/usr/bin/env python3
"""Run Print Assumptions on every theorem of MANIFEST.json (needs a built rocq/)
and rewrite the generated section at the end of DESIGN.md."""
import json, re, glob, subprocess, collections, os, tempfile
ROOT = '/verif/'
where = {}
for f in sorted(glob.glob(ROOT + 'rocq/theories/Props*.v')):
    for m in re.finditer(r'^\s*(?:Theorem|Lemma|Corollary)\s+(C\d+_\w+)', open(f).read(), re.M):
        where[m.group(1)] = os.path.basename(f)[:-2]
th = [t for c in json.load(open(ROOT + 'MANIFEST.json'))['claims'] for t in c['theorems']]
byfile = collections.defaultdict(list)
for t in th:
    byfile[where[t]].append(t)
groups = collections.defaultdict(list)
for mod, ts in byfile.items():
    with tempfile.TemporaryDirectory() as d:
        src = 'From Verif Require %s.\n' % mod
        for t in ts:
            src += 'Goal True. idtac "@@%s". exact I. Qed.\nPrint Assumptions Verif.%s.%s.\n' % (t, mod, t)
        open(d + '/X.v', 'w').write(src)
        out = subprocess.run(['coqc', '-w', 'none', '-Q', ROOT + 'rocq/theories', 'Verif', d + '/X.v'],
                             capture_output=True, text=True)
        assert out.returncode == 0, out.stderr
        for part in out.stdout.split('@@')[1:]:
            name, rest = part.split('\n', 1)
            if 'Closed under the global context' in rest:
                key = ()
            else:
                key = tuple(sorted(re.findall(r'^([A-Za-z_][\w.\']*)(?=\s*:)', rest, re.M)))
                key = tuple(k for k in key if k != 'Axioms')
                assert key, rest
            groups[key].append(name)
s = open(ROOT + 'DESIGN.md').read()
mark = '<!-- generated by tools/assumptions.py -->\n'
s = s.split(mark)[0] + mark
s += '\nClosed under the global context: every theorem of MANIFEST.json except those listed here (%d of %d are closed).\n' % (len(groups[()]), len(th))
for k, ts in sorted(groups.items()):
    if k:
        s += '\n* ' + ', '.join('`%s`' % t for t in ts) + ': ' + ', '.join('`%s`' % a for a in k) + '\n'
s += '\nClosed theorems: ' + ', '.join('`%s`' % t for t in groups[()]) + '.\n'
open(ROOT + 'DESIGN.md', 'w').write(s)
for k, ts in groups.items():
    print(len(ts), k)
