#!/usr/bin/env python3
"""Print Assumptions for every theorem of MANIFEST.json, grouped, written between the markers of
DESIGN.md.  Needs a built /verif/rocq; the query file is compiled in a temporary directory."""
import json, re, os, subprocess, tempfile
root = os.path.dirname(os.path.dirname(os.path.abspath(__file__)))
rocq = root + '/rocq'
mods = re.findall(r'theories/(\S+)\.v', open(rocq + '/_CoqProject').read())
where = {}
for m in mods:
    for n in re.findall(r'^\s*(?:Theorem|Corollary)\s+(C\d+_\w+)', open(f'{rocq}/theories/{m}.v').read(), re.M):
        where[n] = m
names = [n for c in json.load(open(root + '/MANIFEST.json'))['claims'] for n in c['theorems']]
src = ''.join(f'From Verif Require {m}.\n' for m in sorted(set(where[n] for n in names)))
for n in names:
    src += f'Goal True. idtac "@@ {n}". Abort.\nPrint Assumptions {where[n]}.{n}.\n'
with tempfile.TemporaryDirectory() as d:
    open(d + '/Aud.v', 'w').write(src)
    out = subprocess.run(['coqc', '-Q', rocq + '/theories', 'Verif', d + '/Aud.v'], stdout=subprocess.PIPE, stderr=subprocess.STDOUT, text=True)
assert out.returncode == 0, out.stdout[-2000:]
groups, axioms = {}, set()
for part in out.stdout.split('@@ ')[1:]:
    n, _, rest = part.partition('\n')
    ax = () if 'Closed under the global context' in rest else tuple(sorted(set(re.findall(r'^([\w.\']+)(?: :|$)', rest, re.M)) - {'Axioms:', 'Axioms'}))
    groups.setdefault(ax, []).append(n)
    axioms |= set(ax)
assert sum(map(len, groups.values())) == len(names)
keys = sorted(groups, key=lambda k: (len(k), k))
text = f'{len(names)} theorems, {len(axioms)} distinct axioms and primitives.\n\n'
for i, k in enumerate(keys):
    text += f'**Group {i}** ({len(groups[k])} theorems): ' + ('closed under the global context (no axioms).' if not k else ', '.join(f'`{a}`' for a in k) + '.') + '\n\n'
    text += ', '.join(groups[k]) + '.\n\n'
p = root + '/DESIGN.md'
s = open(p).read()
a, b = '<!-- assumptions -->\n', '<!-- end assumptions -->'
i, j = s.index(a) + len(a), s.index(b)
open(p, 'w').write(s[:i] + text + s[j:])
print(len(groups), 'groups', len(axioms), 'axioms')
