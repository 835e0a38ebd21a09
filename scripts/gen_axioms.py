#!/usr/bin/env python3
"""Runs Print Assumptions on every theorem named in MANIFEST.json (after a build) and writes the table of axioms into DESIGN.md
between the markers."""
import json, re, os, subprocess, collections, tempfile
root = os.path.dirname(os.path.dirname(os.path.abspath(__file__)))
man = json.load(open(root + '/MANIFEST.json'))['claims']
thms = []
for c in man:
    for t in c['theorems']:
        if t not in thms: thms.append(t)
where = {}
for l in open(root + '/rocq/_CoqProject'):
    l = l.strip()
    if l.startswith('theories/'):
        for m in re.finditer(r'(?m)^\s*(?:Theorem|Lemma|Example|Corollary)\s+([\w\']+)', open(root + '/rocq/' + l).read()):
            where.setdefault(m.group(1), os.path.basename(l)[:-2])
q = ''.join(f'From Verif Require {m}.\n' for m in sorted({where[t] for t in thms}))
for t in thms: q += f'Goal True. idtac "@@ {t}". exact I. Qed.\nPrint Assumptions {where[t]}.{t}.\n'
d = tempfile.mkdtemp(); open(d + '/q.v', 'w').write(q)
out = subprocess.run(['coqc', '-Q', root + '/rocq/theories', 'Verif', 'q.v'], cwd=d, capture_output=True, text=True).stdout
parts = re.split(r'@@ (\S+)', out); groups = collections.OrderedDict()
for i in range(1, len(parts) - 1, 2):
    ax = tuple(sorted(set(re.findall(r'(?m)^([A-Z][\w.]*\.[\w\']+)\s*(?::|$)', parts[i + 1]))))
    if 'Closed under the global context' in parts[i + 1]: ax = ()
    groups.setdefault(ax, []).append(parts[i])
txt = '| axioms | theorems |\n|---|---|\n'
for ax, ts in sorted(groups.items()):
    txt += '| ' + (', '.join(f'`{a}`' for a in ax) if ax else 'none (closed under the global context)') + ' | ' + ', '.join(ts) + ' |\n'
p = root + '/DESIGN.md'; s = open(p).read()
a, b = '<!-- axioms begin -->\n', '<!-- axioms end -->'
assert a in s
s = s[:s.index(a) + len(a)] + txt + s[s.index(b):]
open(p, 'w').write(s); print({k: len(v) for k, v in groups.items()}, len(thms))
