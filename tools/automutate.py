#!/usr/bin/env python3
"""Generated seeded bugs.  Enumerates small token edits of the definitions in the model files
(comparison, offset, polarity, projection, order and constant edits), applies each to a scratch
copy of /verif/rocq, rebuilds until the first failure, and reports the edits under which
everything still builds.  usage: automutate.py OUT.jsonl [-step k] [-off j] FILES..."""
import json, os, re, subprocess, sys, shutil
from collections import Counter
a = sys.argv[1:]
out = a.pop(0); step, off = 1, 0
if a and a[0] == '-step': step = int(a[1]); a = a[2:]
if a and a[0] == '-off': off = int(a[1]); a = a[2:]
M = '/tmp/amut'; SRC = os.environ.get('SRC', '/verif/rocq')
OPS = [(r'<=\?', ['<?']), (r'<\?', ['<=?']), (r'(?<![<])=\?', ['<=?']), (r'Nat\.eqb', ['Nat.leb']), (r'Z\.eqb', ['Z.leb']),
       (r'Nat\.ltb', ['Nat.leb']), (r'Nat\.leb', ['Nat.ltb']), (r'\bnegb ', ['id ']), (r'&&', ['||']), (r'\|\|', ['&&']),
       (r'\+ 1\b', ['+ 2', '- 1']), (r'- 1\b', ['- 0', '+ 1']), (r'\bfst\b', ['snd']), (r'\bsnd\b', ['fst']),
       (r'\btrue\b', ['false']), (r'\bfalse\b', ['true']), (r'\brev ', ['id ']), (r'\bremovelast ', ['id ']),
       (r'\btl ', ['id ']), (r'\btlt (\w+) (\w+)', [r'tlt \2 \1']), (r'(\w+) \+\+ (\[[^\[\]]*\])', [r'\2 ++ \1']),
       (r'(?<=[ (])0(?=[ );%])', ['1']), (r'(?<=[ (])1(?=[ );%])', ['2']), (r'-9', ['-8']), (r'\bS (\w+)\)', [r'\1)']),
       (r'\bset (\w+) (\w+) (\w+)', [r'set \1 \2 \2']), (r'\badd_connection (\w+) (\w+) (\w+)', [r'add_connection \1 \3 \2']),
       (r'tmax (\w+) ', [r'(fun x => x) '])]
# second set (environment variable OPS=2): conditions, dropped updates, dropped filters, swapped operands
OPS2 = [(r'\bif (?:(?!\bif\b|\bthen\b)[^;])*? then', ['if true then', 'if false then']),
        (r'(\w+) \+\+ (\w+)', [r'\1', r'\2 ++ \1']), (r'\bdset (\S+) (\w+) (\w+) (\w+)', [r'(fun _ => \2) \4']),
        (r'\bset (\w+) (\w+) ', [r'(fun _ => Ok \1) ']), (r'\bupd (\w+) (\w+) ', [r'(fun _ => \1) ']),
        (r'\bfilter \(', ['(fun _ l => l) (']), (r'\bexistsb\b', ['forallb']), (r'\bforallb\b', ['existsb']),
        (r'\bskipn (\S+) ', ['id ']), (r'\bfirstn (\S+) ', ['id ']), (r'Nat\.max', ['Nat.min']), (r'Z\.max', ['Z.min']),
        (r'Nat\.min', ['Nat.max']), (r'\bseq 0 ', ['seq 1 ']), (r'(\w+) :: (\w+)(?=[ );\n])', [r'\2']),
        (r'\bddel (\S+) (\w+) (\w+)', [r'\2']), (r'\b(t?sub|Z\.sub) (\w+) (\w+)', [r'\1 \3 \2']), (r'\bnpget (\w+) (\w+)', [r'npget \1 (\2 + 1)%Z'])]
if os.environ.get('OPS') == '2': OPS = OPS2
def mask(s):
    """blank out comments"""
    o, d, i = [], 0, 0
    while i < len(s):
        if s.startswith('(*', i): d += 1; o.append('  '); i += 2; continue
        if s.startswith('*)', i) and d: d -= 1; o.append('  '); i += 2; continue
        o.append(s[i] if d == 0 or s[i] == '\n' else ' '); i += 1
    return ''.join(o)
def regions(s):
    for m in re.finditer(r'^[ ]*(?:Definition|Fixpoint)\s+([\w\']+)', s, re.M):
        e = re.search(r'\.\s*\n', s[m.start():]); e = m.start() + (e.end() if e else 0)
        c = s.find(':=', m.start(), e)
        if c > 0: yield m.group(1), c, e
def enclosing(f, line):
    kind = name = None
    for i, l in enumerate(open(f).read().split('\n'), 1):
        m = re.match(r'\s*(Theorem|Lemma|Corollary|Example|Definition|Fixpoint|Fact|Remark)\s+([\w\']+)', l)
        if m and i <= line: kind, name = m.groups()
    return kind, name
jobs = []
for f in a:
    s = open(f'{SRC}/theories/{f}').read(); k = mask(s)
    for d, b, e in regions(k):
        for pat, news in OPS:
            for m in re.finditer(pat, k[b:e]):
                for n in news: jobs.append((f, d, b + m.start(), b + m.end(), m.group(0), m.expand(n)))
jobs = jobs[off::step]
print(len(jobs), 'mutants', flush=True)
done = {(r['file'], r['def'], r['pos'], r['new']) for r in map(json.loads, open(out))} if os.path.exists(out) else set()
tally = Counter()
for f, d, i, j, old, new in jobs:
    if (f, d, i, new) in done: continue
    if os.path.exists(M): shutil.rmtree(M)
    subprocess.run(['cp', '-a', SRC, M], check=True)
    p = f'{M}/theories/{f}'; s = open(p).read()
    open(p, 'w').write(s[:i] + new + s[j:])
    r = subprocess.run('make -j4 2>&1', shell=True, cwd=M, capture_output=True, text=True)
    es = re.findall(r'File "\./theories/(\w+)\.v", line (\d+), characters [^\n]*\nError', r.stdout)
    if r.returncode == 0: st, th = 'SURVIVED', ''
    elif not es: st, th = 'unclear', r.stdout[-300:]
    else:
        kn = enclosing(f'{M}/theories/{es[0][0]}.v', int(es[0][1]))
        st, th = ('illtyped' if kn[0] in ('Definition', 'Fixpoint') and es[0][0] + '.v' == f else 'killed'), f'{es[0][0]}.{kn[1]}'
    tally[st] += 1
    line = s.count('\n', 0, i) + 1
    ctx = s[s.rfind('\n', 0, i) + 1:s.find('\n', j)].strip()
    open(out, 'a').write(json.dumps(dict(file=f, **{'def': d}, pos=i, line=line, old=old, new=new, context=ctx, status=st, by=th)) + '\n')
    if st in ('SURVIVED', 'unclear'): print(st, f, line, d, old, '->', new, '|', ctx, th, flush=True)
print(dict(tally), flush=True)
