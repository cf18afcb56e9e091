## 3. What is modelled and what is not

Modelled: every function of `dany/dem_conditioning.py`; of `dany/flow_directions.py` all methods (constructor
checks, areas, padding of neighbour and vertex tables, slopes, flow cells with flat resolution, reversal, nidp,
accumulation, watersheds, subbasins, `hru_len`, `slope`, `aspect`, `vectors`); of `dany/stream_util.py`
all methods of `StreamBase`, `Sfr6`, `Sfr2005`, `PrmsStreams` and `Topology` except those below.

Not modelled, hence trusted or out of scope:

* flopy's grids: vertex lists, cell centres, neighbour tables, `intersect`, `get_node`, `get_lrc`, top elevations are inputs
  of the model; theorems state what they need of them (e.g. symmetric tables, neighbours within range).
  The translation of user points to cell numbers (`intersect`, `get_node`) is therefore an input too.
* reshaping to the grid shape outside `MShape.v` (row-major, values unchanged); on unstructured grids `mf2005` reshaping is not covered.
* `numpy.recarray` layout beyond names and order of columns (`MPkg.v`), default columns of `ModflowSfr2.get_empty_*`;
  flopy's float32 columns (rchlen, strtop, slope, strhc1, strthick of reach_data): the model keeps the number assigned, the
  rounding to binary32 on assignment is not modelled.
* the bytes of pickle files (C101-C103 work on opcodes); fields of `PygsflowCascades/PygsflowStreams` beyond those named in C82 and `MSave.v`.
* pickle itself (`MSave.v`) is modelled as an opcode stream and stack machine for attribute dictionaries of integers and arrays;
  byte encodings, framing and class lookup at load time are not.
* aliasing is modelled in `MWorld.v` only (C94-C98); the single-object models (`MObj`, `MSobj`) assume that callers do not write
  into arrays the object holds (C95 states which those are), except `flow_direction_array` (`MObj.EditDirection`).
  In `MWorld.v` arrays are flat and have one of four kinds; passing an array of another kind raises at once.
* infinite slopes from coincident cell centres.
* NumPy's `np.sum` in the cascades adds in the order of NumPy's pairwise summation (`MStream.np_sum`: eight running sums,
  halving above 128 terms, as in `loops_utils.h.src` of NumPy 1.x/2.x for contiguous float64); NumPy itself is trusted to do so.
* Python sets in `_calculate_flowcell`: each is a singleton (invariant proved in `LDir.v`), so iteration order does not matter;
  warnings, printing and run time.

## 4. Plan and status per property

"proved" = the property as listed in properties.jsonl; "FALSE" = the code does not have the property: the `_refuted`
theorem proves a counterexample (in general form where possible), the status in MANIFEST.json is "partial" and the
note names the part that is true and proved.

