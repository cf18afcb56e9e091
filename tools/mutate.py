#!/usr/bin/env python3
"""Seeded-bug runs.  Reads a JSON-lines file of mutations
 {"file","def","old","new","nth"(optional),"claim"} and, for each one, copies /verif/rocq to
/tmp/mut, applies the edit, rebuilds with make -k and reports which theorems fail.
Appends one line per attempt to /verif/seeded/LOG.jsonl (unless -n)."""
import json, os, re, subprocess, sys, shutil
dry = '-n' in sys.argv
src = [a for a in sys.argv[1:] if not a.startswith('-')][0]
M = '/tmp/mut'
def enclosing(f, line):
    name = None
    for i, l in enumerate(open(f).read().split('\n'), 1):
        m = re.match(r'\s*(?:Theorem|Lemma|Corollary|Example|Definition|Fixpoint|Fact|Remark)\s+([\w\']+)', l)
        if m and i <= line: name = m.group(1)
    return name
for l in open(src):
    if not l.strip(): continue
    m = json.loads(l)
    if os.path.exists(M): shutil.rmtree(M)
    subprocess.run(['cp', '-a', '/verif/rocq', M], check=True)
    p = f"{M}/theories/{m['file']}"
    s = open(p).read()
    k = s.count(m['old'])
    if k == 0 or (k > 1 and 'nth' not in m):
        print("BAD", k, m['def'], m['old']); continue
    i = -1
    for _ in range(m.get('nth', 1)): i = s.index(m['old'], i + 1)
    s = s[:i] + m['new'] + s[i + len(m['old']):]
    open(p, 'w').write(s)
    r = subprocess.run('make -k -j4 2>&1', shell=True, cwd=M, capture_output=True, text=True)
    errs = [(a, int(b)) for a, b in re.findall(r'File "\./theories/(\w+)\.v", line (\d+), characters [^\n]*\nError', r.stdout)]
    failed = sorted({f"{a}.{enclosing(f'{M}/theories/{a}.v', b)}" for a, b in errs})
    blocked = sorted(f[:-2] for f in os.listdir(M + '/theories') if f.startswith('Props') and f.endswith('.v')
                     and (not os.path.exists(f"{M}/theories/{f}o") or os.path.getmtime(f"{M}/theories/{f}o") < os.path.getmtime(p)) )
    out = {"definition": m['def'], "edit": f"{m['old']} -> {m['new']}", "claim_broken": m['claim'],
           "theorems_failed": failed, "property_files_not_rebuilt": blocked, "theorems_tightened": m.get('tightened', [])}
    print(("SURVIVED " if not failed else "killed   ") + m['def'] + ": " + out['edit'] + "  =>  " + ", ".join(failed), flush=True)
    if not dry: open('/verif/seeded/LOG.jsonl', 'a').write(json.dumps(out) + '\n')
