# Formal model of jlarsen-usgs/dany in Rocq (Coq 8.16.1)

`dany` is three Python modules: DEM conditioning (`dem_conditioning.py`), flow directions,
accumulation and basins (`flow_directions.py`) and stream networks (`stream_util.py`).  Every
function of the three modules that computes something is modelled by a Gallina function that
follows it branch by branch; section 3 lists the few that are not.

## 1. How the model is built

* Python exceptions are values: `res A := Ok a | Err e` (`Py.v`).
* A `while` loop is a `Fixpoint` with explicit fuel that returns `Err OutOfFuel` when the fuel
  runs out.  "Terminates" is: a fuel is *given in the statement* with which the call is `Ok`.
  "Loops for ever" is: for *every* fuel the result is `Err OutOfFuel`.
* Python's recursion limit (`Topology._sort_util`) is an explicit parameter; running out of it is
  `Err Recursion`, as `RecursionError` is in Python.
* NumPy indexing wraps negative indices and raises `IndexError` otherwise: `npget`, `npset`.
* Dicts are association lists in insertion order; `set`s are lists without
  duplicates (the sets the code iterates over are singletons or are sorted first).
* Method calls on an object with caches (`FlowDirections`, `Sfr6`, `Sfr2005`, `PrmsStreams`) are
  transitions of a state machine; a *history* is a list of calls (`MObj.v`, `MSobj.v`).
* `Spec.v` and `SpecGeo.v` hold the notions the theorems are stated with (paths, drainage, spill
  elevation, upstream sets, first pour point, steepest neighbour, polygon area, ...).  They import
  no model file.  `Props*.v` hold the property theorems with their non-vacuity examples (Modules
  `Ex..`), `L*.v` the lemmas.

| files | content | properties |
| --- | --- | --- |
| `Py` | results, arrays, dicts, sorting | |
| `Spec`, `SpecGeo` | specification vocabulary, independent of the model | |
| `MHeap LHeap`, `MFill LFill LFill2-4 LEdge LDrain`, `LNan MNanQ Grids`, `PropsFill` | `dem_conditioning.py`: heap, priority flood, drain fill, edges, NaN filling | C01-C17 |
| `MFlow LGraph LAcc LAcc2 LWs LTopo LSub`, `PropsAcc PropsBasin` | accumulation, nidp, watersheds, subbasins, `Topology` | C18-C25, C27, C28, C31-C33 |
| `MStream LStream LConn PropsStream` | streams, MF6 connectivity, connection and package data | C29, C30, C34-C41 |
| `LSeg LSeg2-4 PropsSeg` | MF2005 connectivity | C42-C46 |
| `LReach PropsReach` | segment and reach data | C47-C49 |
| `LRun PropsRun` | `irunbnd` | C50, C51 |
| `LCasc PropsCasc` | cascades | C52-C55, C70, C71 |
| `PropsCtl PropsCtl2 PropsCtlF` | control points | C56, C57, C86-C88 |
| `LVec PropsVec` | stream lines | C69 |
| `MDir LDir LDir2-4 LRat PropsDir` | slopes, `_calculate_flowcell` with flat resolution | C59-C65, C72 |
| `MObj PropsObj` | `FlowDirections` objects under any history of calls | C26, C66 |
| `MSobj PropsSobj PropsPrms` | `Sfr6`, `Sfr2005`, `PrmsStreams` objects under any history | C58, C82 |
| `MGeo LGeo PropsGeo` | areas, slope, aspect, vectors (real arithmetic) | C67, C68, C73, C74 |
| `MNum PropsNum` | numeric columns of package/reach data, builder, `hru_len` | C75-C81 |
| `PropsApi` | the answers of the objects after any history of calls, for the claims on single functions | C19-C52, C58, C69 |
| `LTie`, `PropsTie` | the check for one outlet, tie rule, marked sinks | C83-C85 |
| `LAcc3 PropsAcc2 PropsAccF` | accumulation with any addition, IEEE doubles | C20, C21, C30 for doubles |
| `LFloat32 PropsType` | DEM arrays of integers and of float32 | C89 |
| `MMask PropsMask` | stream masks of any array type | C90 |
| `PropsEmpty` | networks without streams | C91 |
| `LDepth PropsDepth` | the stack frames `Topology.sort` needs | C33, C34, C44 |
| `PropsPipe` | the chain of calls from the elevations to the stream tables | C92 |
| `PropsOutlet` | outseg at outlets | C93 |
| `MWorld LWorld LWorld2-5 PropsWorld PropsWorld2-3 PropsWorldEx PropsWorldF` | sessions: several objects on one modelgrid, arrays on a heap, copies and sharing | C94-C98 |
| `PropsCasc2` | which landscape cells have a many-to-many cascade | C71, C99 |
| `MBuild PropsBuild` | the pyGSFLOW builder with shared tables | C100 |
| `MSave PropsSave` | write and read of the pyGSFLOW objects: files, crashes, pickle opcodes | C101-C103 |
| `MShape PropsShape` | rows and columns of arrays and tables on structured grids | C104, C105 |
| `PropsCascF` | the cascade fractions in binary64, boundaries in any arithmetic | C54, C55 |
| `PropsFill2` | the stream line after a fill with a stream mask | C09 |
| `PropsCasc3` | the records of many-to-one cascades with a boundary | C70 |
| `PropsCtl3` | for which control points the search returns | C57 |
| `PropsSub0` | pour points at cell 0 | C28 |
| `PropsIso` | isolated cells | C72 |
| `PropsOrder` | results that do not depend on the order of points or connections | C106, C107 |
| `PropsAgree` | water balance; accumulation against watersheds and subbasins | C108, C109 |
| `LPerm`, `PropsPerm`, `PropsPermF` | fills of the same terrain with neighbours listed, cells numbered or elevations measured differently | C110-C112 |
| `PropsEdit PropsEdit2` | edited flow-direction arrays | C113 |
| `PropsDirInv`, `PropsDirNum` | flow directions under a change of datum, units, numbering | C114, C115 |
| `PropsSave2` | constructor arguments read back by name | C101 |
| `PropsLeast`, `PropsLeastF` | drain fill as the least draining surface; the three fills compared | C116, C117 |
| `MPkg`, `PropsPkg` | Sfr6.packagedata as a table with columns, `_detuple` | C118 |
| `PropsNet`, `PropsNetF` | streams delineated inside a watershed: one network with one outlet | C119 |
| `PropsCtl4` | control points: order, repeats, additions, type of the threshold | C120 |
| `PropsUnits` | units and datum of the flood fills | C121 |
| `PropsSame` | MODFLOW 6 and MODFLOW-2005 networks agree | C122 |
| `PropsAccLin` | accumulation as a function of the areas | C123 |
| `PropsRenum` | other cell numberings | C124, C51 |
| `PropsAccCyc` | accumulation with flow cycles | C125 |
| `PropsCase` | spellings of the method names | C16 |
| `PropsStable`, `PropsStableF` | stability and locality of the fill | C126, C127 |
| `PropsNanStable` | NaN filling as a function of the elevations | C128 |
| `PropsRobust` | flow directions under small errors | C129 |
| `PropsCasc4` | cascades of a watershed | C130 |
| `PropsThr` | thresholds and basins | C131 |
| `LAny PropsNanFill PropsNanFillF` | filling DEMs with NaN cells | C132-C134 |
| `LCircle PropsCircle PropsCircleF PropsWater` | cascades run in no circle, conserve water | C135, C136 |
| `PropsRain PropsRainF` | elevations to cascades: the rain reaches the outlets | C137, C99 |
| `MNumF PropsNumF PropsNumF2` | coordinates, lengths and gradients in binary64 | C138, C139, C79 |
| `PropsCount` | sizes of the stream tables | C140 |
| `PropsRainF2` | from cell centres and elevations in doubles to the outlets | C141 |
| `PropsRainFEx` | a terrain with a pit that meets every premise of C142 | C142 |
| `PropsRobustF` | flow directions withstand errors, in binary64 | C129 |
| `PropsIter` | the priority flood takes every reachable cell exactly once | C07 |
| `PropsClip` | clipping a terrain to a watershed | C143 |
| `MGeoF PropsGeoF` | cell areas in double precision | C144 |
| `PropsSubb` | subbasin maps: numbering, refinement, budget | C145 |
| `PropsLat`, `PropsLatSeg` | lateral inflow of reaches and of segments | C146 |
| `LFloat PropsFloat` | IEEE binary64 satisfies the laws assumed above | C03, C04, C10, C64, C65 for doubles |

### Arithmetic

The fill and flow-direction algorithms use numbers only through comparison, `x + eps` and a slope
quotient.  Those models are generic in a record of operations (`elev`, `slope_ops` in `Spec.v`), and the
theorems assume the laws in `elev_laws`, `order_laws`: comparisons on non-NaN values are those of an
integer rank / a strict weak order, `x + eps` is monotone and not below `x`.  `PropsFill`/`PropsDir` discharge
the laws for Z and Q; `LFloat.v` discharges them for IEEE binary64 with round-to-nearest-even (Flocq's
`BinarySingleNaN`), so the theorems hold for the doubles NumPy uses, including rounding and absorption.
Accumulated areas are treated both exactly and in binary64 (`PropsAccF`: error bounds), distances, lengths and
gradients too (`MNumF PropsNumF`: `x ** 2` is one rounded multiplication, `np.sqrt` rounds correctly).  Other areas,
fractions and means are exact (Z, Q or R) and the property says "exact arithmetic".

## 2. Trusted base

* Coq 8.16.1's kernel (`coqchk` is run by the gate); no axioms are declared in this development, no
  functors, module types, `Admitted`, plugins or disabled checks.
* The hand translation from Python to Gallina.  Each definition cites the lines it models.  As a check of
  the translation (tests, not proofs) `tools/conformance.py` runs the model by `vm_compute` on the regression
  data shipped in /repo/data; all comparisons agree.
* The axioms below, all from Coq's standard library (`Reals`, `FunctionalExtensionality`, `Classical_Prop`).
  They come in with the real numbers only.  `coqchk` additionally lists
  library-internal module-type entries (`Coq.Reals.Rdefinitions.RbaseSymbolsImpl`/`RinvImpl`, `Coq.ssr.ssrunder.Under_rel`).

### Print Assumptions, theorem by theorem (written by `tools/assumptions.py`)

