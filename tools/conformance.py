#!/usr/bin/env python3
"""Runs the Coq model on the data of the repository's own regression tests and compares with
the stored results (test, not proof; not part of the build).  Elevations are primitive binary64
floats here.  Usage: python3 tools/conformance.py   (after building /verif/rocq)"""
import re, subprocess, os
from collections import defaultdict
D = '/repo/data/freyberg_synthetic/'
W = '/tmp/conf'; os.makedirs(W, exist_ok=True)

def grid(nrow, ncol):
    iverts = []
    for i in range(nrow):
        for j in range(ncol):
            a = i * (ncol + 1) + j
            iverts.append([a, a + 1, a + ncol + 2, a + ncol + 1])
    # flopy.discretization.grid.Grid._set_neighbors(method="queen")
    edge_nodes = defaultdict(set)
    for n, p in enumerate(iverts):
        for v in p: edge_nodes[(v,)].add(n)
    nb = {i: [] for i in range(len(iverts))}
    for e, nodes in edge_nodes.items():
        if len(nodes) > 1:
            for n in nodes:
                nb[n] += list(nodes)
                nb[n].remove(n)
    return iverts, [list(dict.fromkeys(nb[i])) for i in range(len(iverts))]

def floats(f, d=None): return [float(x) for l in open(f) for x in (l.strip().split(d) if d else l.split())]
def ints(f): return [int(float(x)) for x in open(f).read().split()]
def F(x): return f"({x.hex()})" if x >= 0 else f"(-{(-x).hex()})"
def FL(l): return "[" + "; ".join(F(x) for x in l) + "]%float"
def NL(l): return "[" + "; ".join(map(str, l)) + "]"
def NLL(l): return "[" + ";\n ".join(NL(x) for x in l) + "]"

iv, nb = grid(40, 20)
iv5, nb5 = grid(5, 5)
dem = floats(D + 'freyberg_multi-streams_synthetic.txt')
sink = floats('/repo/data/dem_conditioning/sink_array.txt', ',')
xc = [125.0 + 250 * (i % 20) for i in range(800)]
yc = [125.0 + 250 * (39 - i // 20) for i in range(800)]
v = f"""From Coq Require Import Floats String.
From Verif Require Import Py Spec MHeap MFill MFlow MStream MDir.
Set Printing Width 200. Set Printing Depth 100000.
Definition ltb := PrimFloat.ltb. Definition leb := PrimFloat.leb. Definition eqb := PrimFloat.eqb.
Definition E : elev float := Elev leb ltb eqb PrimFloat.add 0%float 0x1.2a05f2p+33%float.
Definition nb := {NLL(nb)}.
Definition iverts := {NLL(iv)}.
Definition nb5 := {NLL(nb5)}.
Definition iverts5 := {NLL(iv5)}.
Definition sink := {FL(sink)}.
Definition dem := {FL(dem)}.
Definition xc := {FL(xc)}.
Definition yc := {FL(yc)}.
Definition dist (a b : nat) : float :=
  let x := (nth b xc 0%float - nth a xc 0%float)%float in let y := (nth b yc 0%float - nth a yc 0%float)%float in
  PrimFloat.sqrt (x * x + y * y)%float.
Definition fuel := Z.to_nat 20000.
Definition fill5 m := fill_sinks E fuel iverts5 nb5 sink (0x1.0c6f7a0b5ed8dp-19)%float None m.
Eval vm_compute in ("PRI"%string, fill5 "priority"%string).
Eval vm_compute in ("COM"%string, fill5 "complete"%string).
Eval vm_compute in ("DRA"%string, fill5 "drain"%string).
Definition filled := match fill_sinks E fuel iverts nb dem (0x1.0c6f7a0b5ed8dp-19)%float None "priority"%string with Ok d => d | _ => [] end.
Definition dirs d := flow_directions PrimFloat.sub PrimFloat.div ltb eqb 0%float 0x1.2a05f2p+33%float fuel dist (map Some d) nb (0x1.0c6f7a0b5ed8dp-20)%float [].
Definition fd := Eval vm_compute in match dirs dem with Ok (d, _) => d | Err _ => [] end.
Definition fdf := Eval vm_compute in match dirs filled with Ok (d, _) => d | Err _ => [] end.
Eval vm_compute in ("FDU"%string, fd).
Eval vm_compute in ("FDF"%string, fdf).
Eval vm_compute in ("ACC"%string, flow_accumulation_cells Z.add 0%Z fuel fd (repeat 62500%Z 800)).
Eval vm_compute in ("ARE"%string, flow_accumulation_area Z.add 0%Z fuel fd (repeat 62500%Z 800)).
Eval vm_compute in ("WSH"%string, get_watershed_boundary fuel fd 795 None).
Eval vm_compute in ("SUB"%string, get_subbasins 900 fuel fd [795; 612; 593]%Z).
Definition acc := Eval vm_compute in match flow_accumulation_area Z.add 0%Z fuel fd (repeat 62500%Z 800) with Ok a => a | _ => [] end.
Definition strm := match delineate_streams (fun a b => (b <=? a)%Z) acc (Scalar 2500000%Z) None with Ok s => s | _ => [] end.
Eval vm_compute in ("CNT"%string, length (nonzero strm)).
Definition m6 := match mf6_connectivity 900 fd strm with Ok g => g | _ => ([], []) end.
Eval vm_compute in ("CON"%string, connectiondata (some_graph (snd m6))).
Eval vm_compute in ("PKG"%string, match packagedata_stored 900 fd strm with Ok l => map (fun p => (p_ifno p, Z.of_nat (p_node p), Z.of_nat (p_node_dn p), p_ncon p)) l | _ => [] end).
Definition m5 := Eval vm_compute in match mf2005_connectivity 900 fuel true fd strm with Ok m => m | _ => Mf2005 [] [] [] [] end.
Eval vm_compute in ("SEG"%string, segment_data (m_seg m5)).
Eval vm_compute in ("RCH"%string, match reach_data 20 (m_seg m5) (m_nsr m5) with Ok l => map (fun r => (r_node r, r_i r, r_j r, r_iseg r, r_ireach r, r_id r)) l | _ => [] end).
Definition cas := match cascades_one (F:=Z) 1%Z fd (m_strm m5) None with Ok c => c | _ => [] end.
Eval vm_compute in ("CAS"%string, map (fun p => let '(u, d, f, s) := p in (u, d, s)) cas).
Eval vm_compute in ("PCT"%string, map (fun p => let '(u, d, f, s) := p in f) cas).
"""
# eps = 2e-6, thr = 1e-6, exactly
import sys
v = v.replace('0x1.0c6f7a0b5ed8dp-19', (2e-06).hex()).replace('0x1.0c6f7a0b5ed8dp-20', (1e-06).hex()).replace('0x1.2a05f2p+33', (1e10).hex())
open(W + '/Conf.v', 'w').write(v)
r = subprocess.run(['coqc', '-w', 'none', '-Q', '/verif/rocq/theories', 'Verif', W + '/Conf.v'], capture_output=True, text=True)
if r.stderr.strip(): print(r.stderr[:2000])
out = {}
for m in re.finditer(r'= \("(\w+)"%string,(.*?)\n     : ', r.stdout, re.S):
    out[m.group(1)] = m.group(2)
def nums(k): return [float(x) for x in re.findall(r'-?\d+(?:\.\d+)?(?:e[-+]?\d+)?', out.get(k, '').replace('%Z', '').replace('%float', '').replace('%nat', ''))]
def cmp(k, expect, tol=0):
    g = nums(k)
    ok = len(g) == len(expect) and all(abs(a - b) <= tol * max(1, abs(b)) for a, b in zip(g, expect))
    print(f"{k:4} {'ok' if ok else 'DIFFERENT'}  ({len(g)} values, expected {len(expect)})")
    if not ok:
        for i, (a, b) in enumerate(zip(g, expect)):
            if abs(a - b) > tol * max(1, abs(b)): print("   first difference at", i, a, b, "; number of differences", sum(1 for a, b in zip(g, expect) if abs(a - b) > tol * max(1, abs(b)))); break
C = '/repo/data/dem_conditioning/'
cmp('PRI', floats(C + 'eps_conditioned_array.txt', ','), 1e-12)
cmp('COM', floats(C + 'complete_conditioned_array.txt', ','), 1e-12)
cmp('DRA', floats(C + 'fd_fill_conditioned_array.txt', ','), 1e-12)
cmp('FDU', ints(D + 'unfilled_flow_dirs.txt'))
cmp('FDF', ints(D + 'filled_flow_dirs.txt'))
cmp('ACC', ints(D + 'flow_accumulation_as_cells.txt'))
cmp('ARE', floats(D + 'flow_accumulation_area.txt'))
cmp('WSH', ints(D + 'watershed_boundary.txt'))
cmp('SUB', ints(D + 'subbasins.txt'))
cmp('CNT', [66])
cmp('CON', ints(D + 'connection_data.txt'))
rows = [[float(x) for x in l.split()] for l in open(D + 'package_data.txt')]
g = nums('PKG'); g = [g[i:i + 4] for i in range(0, len(g), 4)]
print("PKG ", "ok" if [(a[0], a[1], a[3]) for a in g] == [(r[0], r[2] * 20 + r[3], r[11]) for r in rows] else "DIFFERENT", len(g), len(rows))
rows = [[float(x) for x in l.split()] for l in open(D + 'segment_data.txt')]
cmp('SEG', [x for r in rows for x in (r[0], r[2])])
rows = [[float(x) for x in l.split()] for l in open(D + 'reach_data.txt')]
cmp('RCH', [x for r in rows for x in (r[0], r[2], r[3], r[4], r[5], r[15])])
cmp('CAS', [x for t in zip(ints(D + 'hru_up_id.txt'), ints(D + 'hru_down_id.txt'), ints(D + 'hru_strmseg_dn_id.txt')) for x in t])
cmp('PCT', floats(D + 'hru_pct_id.txt'), 1e-12)
