#!/usr/bin/env python3
"""Print Assumptions of every theorem named in MANIFEST.json, grouped by the axioms listed.
Needs a built /verif/rocq.  Prints a markdown fragment for DESIGN.md."""
import json, re, subprocess, os, glob
R = '/verif/rocq'
names = [(c['property'], t) for c in json.load(open('/verif/MANIFEST.json'))['claims'] for t in c['theorems']]
mods = [os.path.basename(f)[:-2] for f in sorted(glob.glob(R + '/theories/*.v'))]
where = {}
for m in mods:
    stack = []
    for l in open(f'{R}/theories/{m}.v'):
        a = re.match(r'\s*Module\s+(\w+)\s*\.', l)
        if a: stack.append(a.group(1))
        a = re.match(r'\s*End\s+(\w+)\s*\.', l)
        if a and stack and stack[-1] == a.group(1): stack.pop()
        a = re.match(r"\s*(?:Theorem|Lemma|Corollary)\s+([\w']+)", l)
        if a: where.setdefault(a.group(1), '.'.join([m] + stack + [a.group(1)]))
v = '/tmp/asm.v'
with open(v, 'w') as f:
    for m in mods: f.write(f'Require Verif.{m}.\n')
    for p, t in names:
        f.write(f'Goal True. idtac "@@{p} {t}". Abort.\nPrint Assumptions Verif.{where[t.split(".")[-1]]}.\n')
o = subprocess.run(f'coqc -Q theories Verif {v}', shell=True, cwd=R, capture_output=True, text=True)
if o.returncode: print(o.stderr[-2000:]); raise SystemExit(1)
g = {}
for part in o.stdout.split('@@')[1:]:
    head, body = part.split('\n', 1)
    ax = tuple(sorted(a for a in re.findall(r'^([\w.]+)\s*:', body, re.M) if a != 'Axioms'))
    g.setdefault(ax, []).append(head.split()[1])
for ax, ts in sorted(g.items()):
    print(f"**{', '.join('`'+a+'`' for a in ax) if ax else 'none (closed under the global context)'}** ({len(ts)} theorems):")
    print(', '.join('`' + t + '`' for t in ts) + '\n')
