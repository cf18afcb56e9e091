import json
plan = {
"C01":"invariant of the flood/drain loop: newdem >= dem; induction over pops",
"C02":"invariant: seeds and closed cells keep their level; unreached cells never written",
"C03":"frontier invariant: every closed cell has a chain to the rim; case split on the pit queue",
"C04":"level of the popped cell = minimax over paths, by the cut argument on the frontier",
"C05":"counting the pit steps along the chain; add_times",
"C06":"on a drained DEM pit branch is never taken; then apply C03 to the first result",
"C07":"unclosed + waiting cells fall by one per iteration; a cell taken is never waiting again",
"C08":"C03's invariant with the mask cells as sources",
"C09":"evaluate a small grid in the kernel; invariant: every stream cell already visited has a stream neighbour at most eps higher",
"C10":"sum of integer ranks decreases with every pass that changes something",
"C11":"fixpoint equations of the last pass plus reachability induction",
"C12":"both are the minimax elevation; uniqueness",
"C13":"iff-characterisation of the dict of sides",
"C14":"potential argument both ways: passes decide it, otherwise no fuel suffices",
"C15":"loop invariant; mean/median/min/max lie in the hull",
"C16":"case analysis, ASCII lower()",
"C17":"heap invariant of siftdown/siftup, permutation; then any history of operations",
"C18":"inner walk bounded by N: nidp of visited cells becomes 0/-1",
"C19":"invariant over the set of finished cells; counting upstream sets",
"C20":"same invariant over an abstract commutative monoid",
"C21":"partition of the cells by their terminal cell",
"C22":"general theorem on negative entries; the leak to N-2 as corollary",
"C23":"counting argument",
"C24":"worklist invariant: marked = already reached backwards",
"C25":"each cell is pushed once",
"C26":"state machine over histories; invariant `reversal = that of the first use`",
"C27":"order by Topology.sort (C32) plus watershed with earlier marks",
"C28":"key 0 of the topology is never read (remove it); a connection to 0 puts the segment behind the marker -1",
"C29":"pointwise", "C30":"C19/C20 monotone along flow",
"C31":"DFS invariant: permutation", "C32":"DFS invariant: closed under predecessors",
"C33":"chain of length > limit for each limit; exact frame count: the visited set is the set reached from smaller segments, and a call needs the length of the unvisited chain",
"C34":"bijection between positions in the topological order and cells",
"C35":"dictionary composition", "C36":"C32 through the numbering", "C37":"the function only looks at non-zero cells",
"C38":"fold invariant over sorted items","C39":"C36 (reach 1 is never downstream)","C40":"C38 with the count",
"C41":"counterexample schema",
"C42":"walk invariant: segments are disjoint flow paths from starts","C43":"fold over the walks","C44":"starts are never crossed: fuel N+1",
"C45":"ring cells are no starts: general refutation","C46":"C32 on the segment graph",
"C47":"sorted keys","C48":"fold invariant","C49":"exact condition for the KeyError",
"C50":"worklist over the reversed graph","C51":"exact label (C50) differs from the first one",
"C52":"fold over cells","C53":"multiplicity = number of inflows","C54":"sums of normalised fractions over Q; binary64: every order of additions stays within (1+u)^n of the exact sum (LSum, LSumF), at most 103 shares above 0.01","C55":"evaluate a small grid",
"C56":"walk = climbs relation of Spec","C57":"pigeonhole on the climb: it ends or comes back to the control point; on a cycle no fuel suffices",
"C58":"state machine over histories",
"C59":"every write to fdir goes through fcells (steepest cells); invariant over the whole of _calculate_flowcell",
"C60":"singleton fcells are written first and never overwritten","C61":"fuel bounds for the nested worklists; no -1 left",
"C62":"NaN rows excluded from every fcells","C63":"counterexample schemas; invariant for uncontested cells",
"C64":"well-founded descent on elevation ranks","C65":"C03 gives the descending neighbour, then C64",
"C66":"state machine; flow_directions depends on the arguments only",
"C67":"algebra over R; fan decomposition, Heron's formula","C68":"trigonometry of atan2","C69":"loop invariant of the line tracer",
"C70":"exact set of records","C71":"general refutation","C72":"no steepest slope leads to an isolated cell, so it keeps -1 until its own iteration; evaluate that one",
"C73":"case analysis over R","C74":"general refutation from index -2",
"C75":"record by record over C40 and C73","C76":"sum over range(1, len) misses the closing side",
"C77":"record by record over C48, C43","C78":"the column read is constant; general refutation and conditional truth",
"C79":"clamp","C80":"unpacking a string of length <> 2 raises","C81":"explicit formula, positivity, counterexamples","C82":"state machine + fold lengths",
"C83":"minimum of the array","C84":"loop invariant with the rule as the value of every settled cell; the linkage test answers exactly reachability","C85":"loop invariant: dropped neighbours flow back, the search marks a closed set",
"C86":"C56 composed with C29","C87":"witness; exact condition by following the stem down","C88":"C86 with a threshold below all values",
"C89":"C02, C03, C12 with the stored sum (truncation, binary32 rounding); general refutation","C90":"connectivity with a cast at every store; general refutation for bool","C91":"evaluate the model on a zero array, for all sizes",
"C92":"composition of C61, C64, C19, C30, C34-C40, C46-C49 at object level","C93":"C42, C43: the outlet has two inflows, one of them itself",
"C94":"a heap model; Hoare-style invariant: every call only adds cells or writes into cells it added",
"C95":"simulation of the heap model by the object models MObj, MSobj; frame argument for the other objects",
"C96":"the heap model: who holds a reference; general refutations for the shared ones","C97":"invariant: the grid top is the last DEM; witness session",
"C98":"burned slopes are zero, zero shares are dropped; the sums change only by rounding (order of np.sum), so shares away from 0.01 keep their side; a session for the refutation","C99":"the largest of at most 99 shares exceeds 1/100 unless all slopes are zero",
"C100":"a heap of tables; the loop is row by row the builder of C79",
"C101":"the unpickler run on the pickled stream rebuilds the object; files only change by writes","C102":"counterexample: cut before the first opcode","C103":"a prefix of the stream has no STOP",
"C104":"row-major numbering on top of C34, C40, C42, C48, C50","C105":"counterexample on every non-square grid",
"C106":"the recursion only looks entries up; the start order is the sorted list of keys","C107":"via C106 for subbasins; a walk writes a value fixed by the cell, so walks commute",
"C108":"the upstream list splits into the cell and the lists of its inflows","C109":"from C19, C20, C24, C27: both sides count the cells upstream",
"C110":"simulation of two floods: the pit is processed in levels of equal elevation, visits from one level commute, and the two heaps always hold the same entries","C111":"from C04: the spill elevation is monotone and invariant",
"C112":"refuted on a 3 x 4 grid; the bound from C04 and C05",
"C113":"paths of cells not upstream of the edit are unchanged; sums over disjoint sets of cells; for any addition: two runs of the walk agree on the catchment, by a simulation","C114":"relational argument: related rows of slopes have minima at the same places, the rest of the computation sees only those places",
"C115":"symmetric terrain as counterexample; without ties from C84",
"C116":"induction along a draining chain of the competing surface, using that the returned surface is settled (no cell above its terrain is higher than a neighbour + eps)","C117":"complete = spill elevation (C04), path of C11; leastness (C116) applied to the priority surface",
"C118":"column lookup in a table of records; C40 for the cells and connections",
"C119":"C24 for the basin, C30 (growth downstream) along the path to the pour point, C34-C36 and C42-C46 for the numbering; induction along the flow path",
"C120":"C57's exact result for order and repeats; C86's characterisation of the stream cells for the comparisons",
"C121":"parametricity of the flood in the elevations: the heap, the loop and the final array are related step by step",
"C122":"both networks are characterised by the same relation (stream cell, downstream cell a stream cell) through C34/C35 and C42-C46",
"C123":"parametricity of the accumulation loop in the areas; counts and areas are updated by the same steps",
"C124":"from the numbering-free characterisations C19, C20, C24, C27, C34/C35, C42/C43, C70",
"C125":"the loop invariant of C19/C20 with the set of passed cells; the cells that are never passed are the terminal and cycle cells",
"C126":"spill elevation (C04) of the same path in both terrains; drain: least surface (C116) applied to the other result raised by d",
"C127":"spill paths; along a spill path of the edited terrain the old filled surface cannot rise at raised cells",
"C128":"relational induction over the loop; each aggregation respects y >= a*x + k (the median through insertion sort)",
"C129":"the margin bounds both slopes; C60 in both terrains",
"C130":"C24 and C70_records_exactly; the pour point is the only cell that leaves its watershed",
"C131":"cell by cell",
"C132":"the forest of the flood needs no law of arithmetic (LAny): each reached cell was raised from, or lies above, the cell it was reached from; NaN cells compare false and are never written",
"C133":"3 x 3 example with doubles",
"C134":"step by step simulation of the drain loop on the DEM and on the DEM with 1e+10 for NaN",
"C135":"height: stream cells rank by the number of steps to the terminal cell, landscape cells above them by the number of strictly lower cells; every record lowers the height",
"C136":"double counting of the records by source and by target, fractions add up to one (C54), self records excluded; existence and uniqueness by iteration along the height of C135; in doubles the same double counting with weights (1 +- delta)^height",
"C137":"composition of C61, C64, C18, C34, C54, C135 and C136 over the calls of the API; every valid cell that is no outlet passes its water on, by C99 and the slope table of the terrain",
"C138":"relative error of every rounding (Flocq), no overflow or underflow by the size bounds, errors composed","C139":"C59/C60 at binary64 + the error of the computed slope (C138): the order of two slopes can only be wrong if they are within 1e-14",
"C140":"double counting (inflows by target or by source) on top of C38, C40 and C42",
"C141":"C138/C139 discharge the hypotheses of C137 (binary64) and C92 for distances computed from coordinates",
"C142":"C03 in doubles gives the interior a lower neighbour after the fill; C141 does the rest",
"C143":"the only steepest neighbour stays the only one when others are blanked (C60); accumulation by a simulation between the two runs that tracks the inflows still to come (a new outlet counts itself)",
"C144":"rounding errors of products (with underflow), differences and the running sum accumulated by induction over the corners; exactness by computing with integers times a power of two; padding adds exact zeros",
"C145":"every label is a first pour point (C27); first pour points under nested sets determine each other; the cells above a pour point are the disjoint union of its subbasin and the cells above the pour points entering it",
"C146":"the cells above a reach are the disjoint union of its landscape and the cells above the reaches that run into it (C145); the networks are those of C34/C42"}
st = {"proved":"proved","partial":"partial","not_applicable":"n/a"}
cl = {c['property']:c for c in json.load(open('/verif/MANIFEST.json'))['claims']}
for l in open('/verif/properties.jsonl'):
    d = json.loads(l); c = cl[d['id']]
    note = f" — {c['note']}" if c.get('note') else ''
    print(f"* **{d['id']}** {d['title']}. *Plan:* {plan.get(d['id'],'see note')}. *Status:* {c['status']}{note}.")
