#!/usr/bin/env python3
"""Print, as Markdown, what Print Assumptions lists for each property theorem.

Run from /verif after a full build of rocq/.  Groups theorems by axiom set."""
import re, subprocess, glob, os, tempfile
names = []
mods = []
for f in sorted(glob.glob('rocq/theories/Props/*.v')):
    mods.append(os.path.basename(f)[:-2])
    for m in re.finditer(r'^Theorem (C\d+_\w+)', open(f).read(), re.M):
        names.append((mods[-1], m.group(1)))
with tempfile.TemporaryDirectory() as d:
    v = os.path.join(d, 'A.v')
    with open(v, 'w') as o:
        for m in mods:
            o.write('From Verif.Props Require %s.\n' % m)
        for m, n in names:
            o.write('Goal True. idtac "@@ %s". exact I. Qed.\nPrint Assumptions %s.%s.\n' % (n, m, n))
    out = subprocess.run(['coqc', '-Q', 'theories', 'Verif', v], cwd='rocq', capture_output=True, text=True)
    if out.returncode:
        raise SystemExit(out.stderr)
groups = {}
for part in out.stdout.split('@@ ')[1:]:
    name, _, body = part.partition('\n')
    ax = tuple(sorted(set(re.findall(r'^([A-Za-z_][\w.]*)\s*(?::|$)', body, re.M)) - {'Axioms', 'Closed'}))
    groups.setdefault(ax, []).append(name.strip())
for ax, ns in sorted(groups.items(), key=lambda t: len(t[0])):
    print('* ' + (', '.join('`%s`' % a for a in ax) if ax else 'no axioms (closed under the global context)') + ':')
    line = '  '
    for n in sorted(ns):
        if len(line) + len(n) > 96:
            print(line.rstrip()); line = '  '
        line += '`%s`, ' % n
    print(line.rstrip().rstrip(','))
