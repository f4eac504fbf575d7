#!/usr/bin/env python3
"""Runs Print Assumptions on every theorem of MANIFEST.json and writes ASSUMPTIONS.md (needs a built tree)."""
import json, os, re, subprocess, collections
root = os.path.dirname(os.path.dirname(os.path.abspath(__file__)))
man = json.load(open(root + '/MANIFEST.json'))
names = []
for c in man['claims']:
    for t in c['theorems']:
        if t not in names: names.append(t)
# locate files
where = {}
tdir = root + '/rocq/theories'
for f in sorted(os.listdir(tdir)):
    if f.endswith('.v'):
        for m in re.finditer(r'^\s*(?:Theorem|Lemma|Corollary|Fact|Remark|Proposition)\s+(\w+)', open(tdir + '/' + f).read(), re.M):
            where.setdefault(m.group(1), f[:-2])
src = ''.join(f'From Verif Require {m}.\n' for m in sorted({where[n.split(".")[-1]] for n in names}))
for n in names:
    b = n.split('.')[-1]
    src += f'Fail Fail Check {where[b]}.{b}.\nPrint Assumptions {where[b]}.{b}.\n'
p = '/tmp/assum.v'
open(p, 'w').write(src.replace('Fail Fail Check', 'Check'))
out = subprocess.run(['coqc', '-Q', tdir, 'Verif', p], capture_output=True, text=True).stdout
res = collections.OrderedDict()
toks = re.split(r'^(Closed under the global context|Axioms:)\s*$', out, flags=re.M)
i = 1
for n in names:
    kind, body = toks[i], toks[i+1]
    if kind.startswith('Closed'): res[n] = ()
    else:
        ax = []
        for line in body.split('\n'):
            m = re.match(r'^([A-Za-z_][\w.]*)\s*(?::|$)', line)
            if m:
                if m.group(1).split('.')[-1] in {x.split('.')[-1] for x in names}: break
                ax.append(m.group(1))
        res[n] = tuple(sorted(ax))
    i += 2
groups = collections.OrderedDict()
for n, a in res.items(): groups.setdefault(a, []).append(n)
with open(root + '/ASSUMPTIONS.md', 'w') as o:
    o.write('# Print Assumptions, per theorem\n\nGenerated by tools/assumptions.py from the built tree.\n')
    for a, ns in sorted(groups.items(), key=lambda kv: len(kv[0])):
        o.write('\n## ' + ('Closed under the global context' if not a else ', '.join(f'`{x}`' for x in a)) + f' ({len(ns)} theorems)\n\n')
        o.write(', '.join(f'`{where[n.split(".")[-1]]}.{n.split(".")[-1]}`' for n in ns) + '\n')
print({k: len(v) for k, v in groups.items()})
