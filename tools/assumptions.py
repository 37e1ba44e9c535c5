#!/usr/bin/env python3
"""Rewrites the table of Print Assumptions in DESIGN.md from a built tree
(run in /verif after make)."""
import re, glob, subprocess, tempfile, os
groups = {}
for f in sorted(glob.glob('rocq/theories/Props*.v')):
    mod = os.path.basename(f)[:-2]
    names = re.findall(r'^Theorem (C\d\w+)', open(f).read(), re.M)
    with tempfile.TemporaryDirectory() as d:
        src = 'From Verif Require %s.\n' % mod + ''.join('Print Assumptions %s.%s.\n' % (mod, n) for n in names)
        open(d + '/q.v', 'w').write(src)
        out = subprocess.run(['coqc', '-w', 'none', '-Q', 'rocq/theories', 'Verif', d + '/q.v'], capture_output=True, text=True, check=True).stdout
    blocks = re.split(r'^(?=Axioms:|Closed under)', out, flags=re.M)[1:]
    assert len(blocks) == len(names), (mod, len(blocks), len(names))
    for n, b in zip(names, blocks):
        ax = tuple(sorted(set(re.findall(r'^([A-Za-z]\w*(?:\.\w+)+)\s*(?=:|$)', b, re.M))))
        groups.setdefault(ax, []).append(n)
lines = []
for ax in sorted(groups, key=lambda a: (len(a), a)):
    lines.append('* %s: %s' % (', '.join('`%s`' % a for a in ax) if ax else 'no axioms (closed under the global context)', ', '.join(groups[ax])))
s = open('DESIGN.md').read()
a, b = '<!-- assumptions -->', '<!-- end assumptions -->'
i, j = s.index(a) + len(a), s.index(b)
open('DESIGN.md', 'w').write(s[:i] + '\n' + '\n'.join(lines) + '\n' + s[j:])
print({len(k): len(v) for k, v in groups.items()})
