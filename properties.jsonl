{"id": "C01", "title": "Filling never lowers terrain", "statement": "fill_sinks returns, for every cell, an elevation greater than or equal to the input elevation, for method 'priority', 'complete' and 'drain', and also when a stream mask is given (priority/complete).", "quantifier": "every grid (any number of cells, any queen-neighbour table), every NaN-free DEM and every eps >= 0", "why_tests_cant": "the claim ranges over infinitely many grids and elevations; the regression tests look at one 5x5 and one 40x20 grid", "anchors": ["dany/dem_conditioning.py::fill_sinks", "dany/dem_conditioning.py::_priority_flood", "dany/dem_conditioning.py::_flood_and_drain_fill"]}
{"id": "C02", "title": "Filling keeps the rim", "statement": "Without a stream mask, fill_sinks leaves the grid-boundary cells at their input elevation, and with method 'priority' or 'complete' also every cell that cannot be reached from the boundary through neighbour links.", "quantifier": "every grid (any number of cells, any queen-neighbour table), every NaN-free DEM and every eps >= 0", "why_tests_cant": "the claim ranges over infinitely many grids and elevations; the regression tests look at one 5x5 and one 40x20 grid", "anchors": ["dany/dem_conditioning.py::fill_sinks", "dany/dem_conditioning.py::_priority_flood"]}
{"id": "C03", "title": "Priority fill removes every sink", "statement": "After fill_sinks(method='priority') every cell reachable from the boundary is connected to a boundary cell by a chain of neighbours along which the filled elevation strictly decreases, provided eps is large enough to change the elevations involved (x < x+eps in the arithmetic used); with eps too small or zero the chain is still non-increasing.", "quantifier": "every grid (any number of cells, any queen-neighbour table), every NaN-free DEM and every eps >= 0", "why_tests_cant": "the claim ranges over infinitely many grids and elevations; the regression tests look at one 5x5 and one 40x20 grid", "anchors": ["dany/dem_conditioning.py::_priority_flood"]}
{"id": "C04", "title": "Complete fill is exactly the spill elevation", "statement": "fill_sinks(method='complete') sets each reachable cell to the minimum over all paths from the boundary of the maximum input elevation along the path - neither more nor less.", "quantifier": "every grid, every NaN-free DEM, every reachable cell and every path", "why_tests_cant": "minimality quantifies over all paths in the grid, which no finite test enumerates", "anchors": ["dany/dem_conditioning.py::_priority_flood", "dany/dem_conditioning.py::fill_sinks"]}
{"id": "C05", "title": "Priority fill over-fills by at most N*eps", "statement": "fill_sinks(method='priority') never sets a reachable cell below its spill elevation and never above its spill elevation plus (number of cells) * eps.", "quantifier": "every grid (any number of cells, any queen-neighbour table), every NaN-free DEM and every eps >= 0", "why_tests_cant": "a bound over all DEMs and all heap/queue schedules", "anchors": ["dany/dem_conditioning.py::_priority_flood"]}
{"id": "C06", "title": "Filling a drained DEM changes nothing", "statement": "If every reachable cell of the DEM already has a strictly descending neighbour chain to the boundary, fill_sinks('priority' or 'complete') returns it unchanged; hence filling twice gives the same result as filling once (priority with effective eps, and complete).", "quantifier": "every grid (any number of cells, any queen-neighbour table), every NaN-free DEM and every eps >= 0", "why_tests_cant": "the claim ranges over infinitely many grids and elevations; the regression tests look at one 5x5 and one 40x20 grid", "anchors": ["dany/dem_conditioning.py::_priority_flood"]}
{"id": "C07", "title": "Priority fill always finishes", "statement": "The priority flood processes each cell at most once and returns after at most (number of cells) iterations of its main loop, on any neighbour table including disconnected or asymmetric ones.", "quantifier": "every grid, DEM, eps, seed set, with or without streams", "why_tests_cant": "termination over all inputs", "anchors": ["dany/dem_conditioning.py::_priority_flood"]}
{"id": "C08", "title": "Stream-mask fill drains the landscape to the streams", "statement": "With a stream mask, fill_sinks leaves every non-stream cell reachable from a stream on a strictly descending (non-increasing if eps is ineffective) neighbour chain that ends in a stream cell.", "quantifier": "every grid, DEM, stream mask, eps", "why_tests_cant": "the claim ranges over infinitely many grids and elevations; the regression tests look at one 5x5 and one 40x20 grid", "anchors": ["dany/dem_conditioning.py::_priority_flood"]}
{"id": "C09", "title": "Stream-mask fill leaves no pits along the stream line", "statement": "With a stream mask, after fill_sinks no stream cell with at least two stream neighbours is lower than all of its stream neighbours.", "quantifier": "every grid, DEM and stream mask", "why_tests_cant": "one mask in a test does not settle all masks", "anchors": ["dany/dem_conditioning.py::_priority_flood"]}
{"id": "C10", "title": "Drain fill always finishes", "statement": "fill_sinks(method='drain') terminates for every DEM (elevations are drawn from a discrete set, as IEEE doubles are).", "quantifier": "every grid (any number of cells, any queen-neighbour table), every NaN-free DEM and every eps >= 0", "why_tests_cant": "a data-dependent while loop: termination cannot be tested", "anchors": ["dany/dem_conditioning.py::_flood_and_drain_fill", "dany/dem_conditioning.py::_inner_flood_and_drain_fill"]}
{"id": "C11", "title": "Drain fill removes every sink", "statement": "When fill_sinks(method='drain') returns, each non-boundary cell it assigned has a neighbour whose filled elevation plus eps does not exceed its own, and every cell reachable from the boundary (with elevations below the 1e10 flood level) is assigned.", "quantifier": "every grid (any number of cells, any queen-neighbour table), every NaN-free DEM and every eps >= 0", "why_tests_cant": "the claim ranges over infinitely many grids and elevations; the regression tests look at one 5x5 and one 40x20 grid", "anchors": ["dany/dem_conditioning.py::_flood_and_drain_fill", "dany/dem_conditioning.py::_inner_flood_and_drain_fill"]}
{"id": "C12", "title": "Drain and complete fill agree when eps is zero", "statement": "With eps = 0 the 'drain' method returns, on every reachable cell, the same spill elevation as 'complete'.", "quantifier": "every grid and DEM below the flood level", "why_tests_cant": "equivalence of two algorithms over all inputs", "anchors": ["dany/dem_conditioning.py::_flood_and_drain_fill", "dany/dem_conditioning.py::_priority_flood"]}
{"id": "C13", "title": "Edge cells are exactly the cells with an unshared side", "statement": "The set of seed cells used for filling is the sorted, duplicate-free list of exactly those cells that have a polygon side (unordered pair of consecutive vertices) belonging to no other cell.", "quantifier": "every list of cell polygons, closed or not, clockwise or not", "why_tests_cant": "the claim ranges over infinitely many grids and elevations; the regression tests look at one 5x5 and one 40x20 grid", "anchors": ["dany/dem_conditioning.py::_identify_edge_nodes"]}
{"id": "C14", "title": "NaN filling terminates exactly when ...", "statement": "fill_nan_values returns if and only if every NaN cell has a neighbour that is valid or that is a NaN cell with a larger cell number; otherwise it loops for ever.", "quantifier": "every grid and every NaN pattern", "why_tests_cant": "non-termination cannot be observed by a test, and the condition ranges over all NaN patterns", "anchors": ["dany/dem_conditioning.py::fill_nan_values"]}
{"id": "C15", "title": "NaN filling is complete and conservative", "statement": "When fill_nan_values returns, no NaN remains, every originally valid cell is unchanged, and every filled value lies between the smallest and largest valid input elevation, for 'mean', 'median', 'min' and 'max' (exact arithmetic).", "quantifier": "every grid, NaN pattern and method", "why_tests_cant": "the claim ranges over infinitely many grids and elevations; the regression tests look at one 5x5 and one 40x20 grid", "anchors": ["dany/dem_conditioning.py::fill_nan_values"]}
{"id": "C16", "title": "fill_sinks method dispatch", "statement": "Method names are case-insensitive; a stream mask always selects priority flooding (seeded by the mask), 'complete' always uses eps = 0 and any other unrecognised method name runs 'drain'. The method names of fill_nan_values are case-insensitive too, and an unrecognised one is refused.", "quantifier": "every method string, eps and mask", "why_tests_cant": "all strings", "anchors": ["dany/dem_conditioning.py::fill_sinks"]}
{"id": "C17", "title": "The priority queue is a priority queue", "statement": "Any interleaving of heap pushes and pops performed by the fill returns the smallest pending (elevation, cell) pair at each pop and neither loses nor invents entries.", "quantifier": "every sequence of pushes and pops over every strict weak order", "why_tests_cant": "all operation histories", "anchors": ["dany/dem_conditioning.py::_priority_flood"]}
{"id": "C18", "title": "Flow accumulation always finishes", "statement": "flow_accumulation terminates for every flow-direction array whose entries are valid cell numbers, including arrays with cycles.", "quantifier": "every flow-direction array", "why_tests_cant": "while True loop; termination cannot be tested", "anchors": ["dany/flow_directions.py::FlowDirections.flow_accumulation"]}
{"id": "C19", "title": "Accumulated cells = number of upstream cells", "statement": "flow_accumulation(as_cells=True) returns for each cell that is not on a flow cycle of length two or more exactly the number of cells (itself included) whose flow path passes through it.", "quantifier": "every flow-direction array with valid entries and every cell", "why_tests_cant": "all drainage networks", "anchors": ["dany/flow_directions.py::FlowDirections.flow_accumulation", "dany/flow_directions.py::FlowDirections.get_nidp"]}
{"id": "C20", "title": "Accumulated area = total upstream area", "statement": "flow_accumulation() returns for each cell not on a cycle the sum of the areas of the cells whose flow path passes through it (exact arithmetic).", "quantifier": "every flow-direction array, every area array", "why_tests_cant": "all drainage networks", "anchors": ["dany/flow_directions.py::FlowDirections.flow_accumulation"]}
{"id": "C21", "title": "Water is conserved", "statement": "If every flow path ends in a terminal cell, the accumulations at the terminal cells add up to the number of cells (to the total area).", "quantifier": "every cycle-free flow-direction array", "why_tests_cant": "all drainage networks", "anchors": ["dany/flow_directions.py::FlowDirections.flow_accumulation"]}
{"id": "C22", "title": "Unresolved sinks do not leak", "statement": "A cell marked as a sink (-2) contributes to no other cell's accumulation.", "quantifier": "every flow-direction array with sink markers", "why_tests_cant": "a test without sinks never sees it", "anchors": ["dany/flow_directions.py::FlowDirections.flow_accumulation", "dany/flow_directions.py::FlowDirections.get_nidp"]}
{"id": "C23", "title": "nidp counts inflows", "statement": "get_nidp()[c] is the number of cells whose flow direction is c.", "quantifier": "every flow-direction array with valid entries", "why_tests_cant": "all arrays", "anchors": ["dany/flow_directions.py::FlowDirections.get_nidp"]}
{"id": "C24", "title": "Watershed = exactly the upstream cells", "statement": "On a freshly computed flow-direction array get_watershed_boundary marks with 1 exactly the pour-point cell and the cells whose flow path passes through it, and 0 elsewhere, also on arrays with cycles.", "quantifier": "every valid flow-direction array and every pour-point cell", "why_tests_cant": "all networks and pour points", "anchors": ["dany/flow_directions.py::FlowDirections.get_watershed_boundary", "dany/flow_directions.py::FlowDirections._reverse_flow_directions"]}
{"id": "C25", "title": "Watershed delineation always finishes", "statement": "get_watershed_boundary terminates for every valid flow-direction array, also when flow directions contain cycles or when subbasins are already marked.", "quantifier": "every valid flow-direction array, pour point and previous marking", "why_tests_cant": "termination", "anchors": ["dany/flow_directions.py::FlowDirections.get_watershed_boundary"]}
{"id": "C26", "title": "Watersheds follow the current flow directions", "statement": "get_watershed_boundary answers for the flow directions computed by the latest flow_directions call, whatever was called before.", "quantifier": "every history of calls on one FlowDirections object", "why_tests_cant": "histories are unbounded", "anchors": ["dany/flow_directions.py::FlowDirections._reverse_flow_directions", "dany/flow_directions.py::FlowDirections.get_watershed_boundary", "dany/flow_directions.py::FlowDirections.flow_directions"]}
{"id": "C27", "title": "Subbasins go to the nearest pour point downstream", "statement": "For pour points of which no two lie on a common flow cycle (and none is cell 0, see C28), get_subbasins gives two cells the same non-zero label iff the first pour point on their flow paths is the same, and label 0 iff no pour point is on the path; labels are 1..k without gaps.", "quantifier": "every cycle-free flow-direction array and every list of distinct pour-point cells", "why_tests_cant": "all networks and pour point sets", "anchors": ["dany/flow_directions.py::FlowDirections.get_subbasins", "dany/stream_util.py::Topology.sort"]}
{"id": "C28", "title": "Pour points may be anywhere", "statement": "get_subbasins delineates a subbasin for every pour point, whatever its cell number.", "quantifier": "every pour-point set", "why_tests_cant": "tests never use cell 0", "anchors": ["dany/flow_directions.py::FlowDirections.get_subbasins", "dany/stream_util.py::Topology.sort"]}
{"id": "C29", "title": "Streams shrink as the threshold grows", "statement": "delineate_streams with a larger contributing area (scalar or per cell) returns a subset of the stream cells; a basin boundary only removes cells with boundary 0; the result holds only 0 and 1.", "quantifier": "every accumulation array, thresholds and mask", "why_tests_cant": "all arrays", "anchors": ["dany/stream_util.py::StreamBase.delineate_streams"]}
{"id": "C30", "title": "Delineated streams run on to the outlet", "statement": "With a scalar threshold and no mask, the cell downstream of a delineated stream cell is a delineated stream cell (accumulation computed by flow_accumulation on a cycle-free network).", "quantifier": "every cycle-free network, non-negative areas and threshold", "why_tests_cant": "composition of two algorithms over all networks", "anchors": ["dany/stream_util.py::StreamBase.delineate_streams", "dany/flow_directions.py::FlowDirections.flow_accumulation"]}
{"id": "C31", "title": "Topological sort loses nothing", "statement": "Topology.sort returns each added non-zero segment exactly once and nothing else.", "quantifier": "every connection set whose targets are 0 or known segments", "why_tests_cant": "all graphs", "anchors": ["dany/stream_util.py::Topology.sort", "dany/stream_util.py::Topology._sort_util"]}
{"id": "C32", "title": "Topological sort is topological", "statement": "In the list returned by Topology.sort every segment comes before the segment it flows to, unless that target is 0, itself, or on a common cycle.", "quantifier": "every connection set", "why_tests_cant": "all graphs", "anchors": ["dany/stream_util.py::Topology.sort", "dany/stream_util.py::Topology._sort_util"]}
{"id": "C33", "title": "Topological sort handles any length", "statement": "Topology.sort succeeds for stream networks of any length.", "quantifier": "every network length and recursion limit", "why_tests_cant": "needs networks beyond the interpreter's recursion limit", "anchors": ["dany/stream_util.py::Topology._sort_util"]}
{"id": "C34", "title": "MF6 reaches number the stream cells one to one", "statement": "After get_stream_connectivity (MF6) the stream array holds each reach number 1..n exactly once on the stream cells and 0 elsewhere, and the graph has exactly the keys 1..n.", "quantifier": "every valid flow-direction array and stream array", "why_tests_cant": "all networks", "anchors": ["dany/stream_util.py::StreamBase._mf6_stream_connectivity"]}
{"id": "C35", "title": "MF6 graph follows the flow directions", "statement": "graph[reach of cell c] is the reach of the cell c flows to, or 0 if that cell is not a stream cell.", "quantifier": "every valid flow-direction array and stream array", "why_tests_cant": "all networks", "anchors": ["dany/stream_util.py::StreamBase._mf6_stream_connectivity"]}
{"id": "C36", "title": "MF6 reach numbers increase downstream", "statement": "On a cycle-free network graph[r] is 0, r itself (outlet) or larger than r.", "quantifier": "every cycle-free network", "why_tests_cant": "all networks", "anchors": ["dany/stream_util.py::StreamBase._mf6_stream_connectivity"]}
{"id": "C37", "title": "Reach numbering is repeatable", "statement": "Calling get_stream_connectivity again on its own result, or on any array with the same non-zero cells, returns the same graph and the same numbering.", "quantifier": "every network, any number of repetitions", "why_tests_cant": "histories", "anchors": ["dany/stream_util.py::StreamBase._mf6_stream_connectivity"]}
{"id": "C38", "title": "Connection data is symmetric and complete", "statement": "connectiondata has one record per reach in increasing order; the record of r lists exactly the reaches flowing into r (as non-negative zero-based numbers), then - if r flows to another reach - minus the zero-based number of that reach as last entry, and nothing else.", "quantifier": "every reach graph with keys 1..n and targets 0 or keys", "why_tests_cant": "all graphs", "anchors": ["dany/stream_util.py::Sfr6.connectiondata"]}
{"id": "C39", "title": "Connection data keeps the direction sign", "statement": "Every downstream entry in connectiondata of a graph produced by get_stream_connectivity on a cycle-free network is strictly negative, so upstream and downstream connections cannot be confused.", "quantifier": "every cycle-free network", "why_tests_cant": "off-by-one at reach 1 only shows on special numberings", "anchors": ["dany/stream_util.py::Sfr6.connectiondata", "dany/stream_util.py::StreamBase._mf6_stream_connectivity"]}
{"id": "C40", "title": "Package data connection counts match", "statement": "Record r of packagedata carries ifno r-1, the cell of reach r, and ncon equal to the number of connections in record r of connectiondata.", "quantifier": "every network", "why_tests_cant": "all networks", "anchors": ["dany/stream_util.py::Sfr6.packagedata"]}
{"id": "C41", "title": "packagedata accepts a stream array", "statement": "packagedata(stream_array) succeeds on every binary stream array on which get_stream_connectivity succeeds.", "quantifier": "every binary stream array", "why_tests_cant": "tests never pass the argument", "anchors": ["dany/stream_util.py::Sfr6.packagedata"]}
{"id": "C42", "title": "Segments partition the stream cells", "statement": "After MF2005 connectivity (grouped) every stream cell that is not on an inflow-free cycle appears in exactly one (node, segment, reach) record, reach numbers count 1,2,3,... down each segment, consecutive reaches are linked by flow direction, and a new segment starts exactly at headwaters and confluences.", "quantifier": "every valid flow-direction array and stream array", "why_tests_cant": "all networks", "anchors": ["dany/stream_util.py::StreamBase._mf2005_stream_connectivity"]}
{"id": "C43", "title": "Segment graph follows the flow directions", "statement": "seg_graph maps each segment to the segment that contains the cell below its last reach, or to 0 if that cell is not a stream cell.", "quantifier": "every valid flow-direction array and stream array", "why_tests_cant": "all networks", "anchors": ["dany/stream_util.py::StreamBase._mf2005_stream_connectivity"]}
{"id": "C44", "title": "Segment grouping always finishes", "statement": "MF2005 grouping terminates on every flow-direction array, including arrays with cycles among stream cells.", "quantifier": "every flow-direction array and stream array", "why_tests_cant": "while True loop", "anchors": ["dany/stream_util.py::StreamBase._mf2005_stream_connectivity"]}
{"id": "C45", "title": "No stream cell is lost by grouping", "statement": "Every stream cell receives a segment number and a reach record.", "quantifier": "every valid flow-direction array and stream array", "why_tests_cant": "needs an isolated self-draining stream cell", "anchors": ["dany/stream_util.py::StreamBase._mf2005_stream_connectivity"]}
{"id": "C46", "title": "Segment numbers increase downstream", "statement": "On a cycle-free network seg_graph[s] is 0, s or larger than s, in grouped and ungrouped mode.", "quantifier": "every cycle-free network", "why_tests_cant": "all networks", "anchors": ["dany/stream_util.py::StreamBase._mf2005_stream_connectivity"]}
{"id": "C47", "title": "Segment data is ordered", "statement": "segment_data lists the segments 1..k in order, each with its outseg.", "quantifier": "every network", "why_tests_cant": "all networks", "anchors": ["dany/stream_util.py::Sfr2005.segment_data"]}
{"id": "C48", "title": "Reach data covers every reach once", "statement": "reach_data, when it returns, has one record per (node, segment, reach) triple, ordered by segment and reach, with reach IDs 1..n.", "quantifier": "every network", "why_tests_cant": "all networks", "anchors": ["dany/stream_util.py::Sfr2005.reach_data"]}
{"id": "C49", "title": "reach_data succeeds on every delineated network", "statement": "reach_data returns for every network accepted by get_stream_connectivity.", "quantifier": "every network on a structured grid", "why_tests_cant": "depends on coincidences between column numbers and segment numbers", "anchors": ["dany/stream_util.py::Sfr2005.reach_data"]}
{"id": "C50", "title": "irunbnd covers exactly the draining cells", "statement": "irunbnd is non-zero exactly at the cells whose flow path meets a stream cell, and its value is the label of a stream cell on that path.", "quantifier": "every valid flow-direction array and labelled stream array", "why_tests_cant": "all networks", "anchors": ["dany/stream_util.py::Sfr2005.irunbnd"]}
{"id": "C51", "title": "irunbnd sends runoff to the first stream cell", "statement": "irunbnd[c] is the label of the first stream cell on the flow path of c.", "quantifier": "every network and cell numbering", "why_tests_cant": "depends on cell numbering order", "anchors": ["dany/stream_util.py::Sfr2005.irunbnd"]}
{"id": "C52", "title": "Cascades are flow links", "statement": "get_cascades (many to one, no boundary) lists exactly the links c -> flow direction of c with fraction 1, with one-based numbers, and the stream segment of the receiving cell.", "quantifier": "every valid flow-direction array and stream array", "why_tests_cant": "all networks", "anchors": ["dany/stream_util.py::PrmsStreams.get_cascades", "dany/stream_util.py::PrmsStreams._build_many_to_one_cascades"]}
{"id": "C53", "title": "Cascade fractions of a cell add up to one", "statement": "In get_cascades (many to one) the fractions leaving each cell sum to 1.", "quantifier": "every valid flow-direction array", "why_tests_cant": "the regression file was recorded from the code itself", "anchors": ["dany/stream_util.py::PrmsStreams._build_many_to_one_cascades"]}
{"id": "C54", "title": "Many-to-many fractions add up to one", "statement": "In get_cascades(many2many=True) the fractions leaving each cell that has any cascade sum to 1 and each is greater than 0.01 (exact arithmetic).", "quantifier": "every slope table and flow-direction array", "why_tests_cant": "all tables", "anchors": ["dany/stream_util.py::PrmsStreams._build_many_to_many_cascades"]}
{"id": "C55", "title": "Many-to-many cascades stay inside the basin", "statement": "With a basin boundary no many-to-many cascade of a landscape cell leads to a cell outside the boundary.", "quantifier": "every boundary", "why_tests_cant": "tests do not pass a boundary", "anchors": ["dany/stream_util.py::PrmsStreams._build_many_to_many_cascades"]}
{"id": "C56", "title": "Control-point thresholds follow the main stem", "statement": "threshold_from_control_points terminates on cycle-free networks and sets facc-5 exactly on the chains that climb from each control point along the largest inflow, and the threshold elsewhere.", "quantifier": "every cycle-free network and control point list", "why_tests_cant": "all networks", "anchors": ["dany/stream_util.py::StreamBase.threshold_from_control_points"]}
{"id": "C57", "title": "Control-point tracing always finishes", "statement": "threshold_from_control_points terminates for every flow-direction array produced by flow_directions.", "quantifier": "every flow-direction array", "why_tests_cant": "termination", "anchors": ["dany/stream_util.py::StreamBase.threshold_from_control_points"]}
{"id": "C58", "title": "Stream products follow the current stream array", "statement": "connectiondata, packagedata, segment_data and reach_data describe the streams delineated last, whatever was called before on the object.", "quantifier": "every history of calls on one stream object", "why_tests_cant": "histories are unbounded", "anchors": ["dany/stream_util.py::Sfr6.connectiondata", "dany/stream_util.py::Sfr6.packagedata", "dany/stream_util.py::Sfr2005.segment_data", "dany/stream_util.py::StreamBase.create_stream_vectors"]}
{"id": "C59", "title": "Flow goes to a steepest neighbour", "statement": "After flow_directions every cell flows to itself (NaN cell, outlet, terminal cell), is marked -2 (sink), or flows to a neighbour with the minimum slope among its neighbours.", "quantifier": "every grid, DEM with NaNs, threshold and terminal-cell list in which every valid cell has a valid neighbour or as many neighbours as any other cell (for the other DEMs see C72)", "why_tests_cant": "the claim ranges over infinitely many grids and elevations; the regression tests look at one 5x5 and one 40x20 grid", "anchors": ["dany/flow_directions.py::FlowDirections._calculate_flowcell", "dany/flow_directions.py::FlowDirections._resolve_flats", "dany/flow_directions.py::FlowDirections.flow_directions"]}
{"id": "C60", "title": "A unique steepest neighbour wins", "statement": "A cell that is not NaN, outlet or terminal and has exactly one minimum-slope neighbour flows to that neighbour, whatever happens while flats elsewhere are resolved.", "quantifier": "every grid and DEM", "why_tests_cant": "the claim ranges over infinitely many grids and elevations; the regression tests look at one 5x5 and one 40x20 grid", "anchors": ["dany/flow_directions.py::FlowDirections._calculate_flowcell"]}
{"id": "C61", "title": "Flow directions are always computed", "statement": "flow_directions terminates and leaves no cell unresolved (-1).", "quantifier": "every grid and DEM as in C59 with fewer than 999000 cells", "why_tests_cant": "three nested while loops over data-dependent worklists", "anchors": ["dany/flow_directions.py::FlowDirections._calculate_flowcell"]}
{"id": "C62", "title": "NaN cells keep to themselves", "statement": "A NaN cell flows to itself and no cell flows into a NaN cell.", "quantifier": "every grid and NaN pattern", "why_tests_cant": "the claim ranges over infinitely many grids and elevations; the regression tests look at one 5x5 and one 40x20 grid", "anchors": ["dany/flow_directions.py::FlowDirections._calculate_flowcell"]}
{"id": "C63", "title": "The outlet drains out", "statement": "After flow_directions the lowest cell and the terminal cells flow to themselves.", "quantifier": "every grid and DEM", "why_tests_cant": "needs a tie next to the outlet", "anchors": ["dany/flow_directions.py::FlowDirections._calculate_flowcell", "dany/flow_directions.py::FlowDirections.flow_directions"]}
{"id": "C64", "title": "Downhill terrain drains completely", "statement": "If every non-terminal cell has a neighbour with negative slope and no tie involves a terminal cell, every flow path descends strictly and ends in the outlet or a terminal cell; no sinks are marked.", "quantifier": "every grid and DEM meeting the condition", "why_tests_cant": "all DEMs", "anchors": ["dany/flow_directions.py::FlowDirections._calculate_flowcell"]}
{"id": "C65", "title": "Filled terrain gives cycle-free flow directions", "statement": "flow_directions on a DEM filled by fill_sinks contains no flow cycle.", "quantifier": "every grid and DEM", "why_tests_cant": "the regression file itself contains such cycles", "anchors": ["dany/flow_directions.py::FlowDirections.flow_directions", "dany/dem_conditioning.py::fill_sinks"]}
{"id": "C66", "title": "flow_directions is repeatable", "statement": "Calling flow_directions again with the same arguments returns the same array.", "quantifier": "every object and number of calls", "why_tests_cant": "histories", "anchors": ["dany/flow_directions.py::FlowDirections.flow_directions", "dany/flow_directions.py::FlowDirections._fill_irregular_neighbor_array"]}
{"id": "C67", "title": "Shoelace area is a polygon area", "statement": "The area computed for a cell does not depend on the starting vertex, the orientation, the position of the grid or repeated padding vertices, scales quadratically, adds up over a cut along a diagonal (same orientation), and equals width*height for a rectangle.", "quantifier": "every polygon (exact arithmetic)", "why_tests_cant": "all polygons", "anchors": ["dany/flow_directions.py::FlowDirections._shoelace_area"]}
{"id": "C68", "title": "Aspect and flow vectors point downstream", "statement": "aspect lies in [0, 360) and vectors returns, for every cell that flows to another cell, the unit vector from its centre towards the centre of that cell (exact arithmetic).", "quantifier": "every pair of cell centres", "why_tests_cant": "all coordinates", "anchors": ["dany/flow_directions.py::FlowDirections.aspect", "dany/flow_directions.py::FlowDirections.vectors"]}
{"id": "C69", "title": "Stream lines trace the segments", "statement": "create_stream_vectors returns one line per stream segment that has at least two cells or runs on to another segment (a closed ring of segments that nothing flows into has none); the line passes through the cells of the segment in flow order and, if the segment runs on, ends in the first cell of the next segment. It terminates on every network.", "quantifier": "every network, grouped or not", "why_tests_cant": "worklist loop over all networks", "anchors": ["dany/stream_util.py::StreamBase.create_stream_vectors"]}
{"id": "C70", "title": "Many-to-one cascades stay inside the basin", "statement": "With a basin boundary get_cascades (many to one) lists a record for every cell inside the boundary and none for a cell outside.", "quantifier": "every valid flow-direction array and boundary", "why_tests_cant": "tests do not look at the outlet of the basin", "anchors": ["dany/stream_util.py::PrmsStreams._build_many_to_one_cascades"]}
{"id": "C71", "title": "Many-to-many cascades keep every downhill landscape cell connected", "statement": "In get_cascades(many2many=True) without a boundary every landscape cell with a downhill neighbour has a cascade.", "quantifier": "every slope table and flow-direction array", "why_tests_cant": "depends on which cells happen to flow to cell 0", "anchors": ["dany/stream_util.py::PrmsStreams._build_many_to_many_cascades"]}
{"id": "C72", "title": "Valid cells surrounded by NaN are handled", "statement": "flow_directions accepts DEMs in which a valid cell has only NaN neighbours, and never returns a cell number that does not exist.", "quantifier": "every grid and NaN pattern", "why_tests_cant": "depends on how many padding slots the isolated cell happens to have", "anchors": ["dany/flow_directions.py::FlowDirections._calculate_flowcell", "dany/flow_directions.py::FlowDirections._fill_irregular_neighbor_array"]}
{"id": "C73", "title": "Slope is the drop along the drainage path", "statement": "slope gives (elevation - elevation of the cell it flows to) / distance of the centres for every cell that flows to another cell (drops between 0 and 1e-6 count as 0), so it is never negative where the water flows downhill, and 0 for cells without elevation and for cells that drain to themselves (exact arithmetic).", "quantifier": "every grid, DEM and flow-direction array", "why_tests_cant": "all coordinates and elevations", "anchors": ["dany/flow_directions.py::FlowDirections.slope"]}
{"id": "C74", "title": "Cells that drain nowhere have no slope and no direction", "statement": "A cell that flow_directions leaves undrained (-2) has slope 0 and is not given the direction towards an unrelated cell.", "quantifier": "every grid, DEM and flow-direction array", "why_tests_cant": "needs a DEM with an unresolved flat", "anchors": ["dany/flow_directions.py::FlowDirections.slope", "dany/flow_directions.py::FlowDirections.aspect", "dany/flow_directions.py::FlowDirections.vectors"]}
{"id": "C75", "title": "Package data lengths, gradients and tops", "statement": "Every record of packagedata has as rtp the elevation of its cell; where the water goes on to another stream cell rlen is 1.5 times the distance of the two centres (so positive) and rgrd the drop to the cell below divided by 1.5 times the distance (drops between 0 and 1e-6 count as 0); rgrd is 0 for cells that drain to themselves (exact arithmetic).", "quantifier": "every grid, DEM, valid flow-direction array and stream array", "why_tests_cant": "all coordinates, elevations and networks", "anchors": ["dany/stream_util.py::Sfr6.packagedata", "dany/flow_directions.py::FlowDirections.slope"]}
{"id": "C76", "title": "Outlet reaches of MODFLOW-6 have the length of the cell", "statement": "A reach with no reach below it gets rlen = 1.5 times the mean side length of its cell.", "quantifier": "every cell polygon", "why_tests_cant": "tests use one grid with square cells", "anchors": ["dany/stream_util.py::Sfr6.packagedata"]}
{"id": "C77", "title": "Reach data lengths, slopes and tops", "statement": "Every record of reach_data has as strtop the elevation of its cell; where the water goes on to another stream cell rchlen is 1.5 times the distance of the centres and slope is the drop divided by rchlen, within a segment and from one segment to the next; at outlets rchlen is 1.5 times the mean of the cell's width and height and slope 0.0001 (exact arithmetic).", "quantifier": "every structured grid, DEM, flow-direction array and stream array, grouped or not", "why_tests_cant": "all coordinates, elevations and networks", "anchors": ["dany/stream_util.py::Sfr2005.reach_data"]}
{"id": "C78", "title": "Builder slopes follow the stream", "statement": "get_pygsflow_builder_object of Sfr2005 sets the slope of each reach to the drop to the next reach divided by the distance, kept between the minimum and the maximum slope.", "quantifier": "every network and DEM", "why_tests_cant": "tests do not look at the values", "anchors": ["dany/stream_util.py::Sfr2005.get_pygsflow_builder_object"]}
{"id": "C79", "title": "Builder slopes stay within the limits", "statement": "The slopes in the object returned by get_pygsflow_builder_object of Sfr2005 are never below the minimum slope (0.0001) nor above the maximum (1), whatever reach data is passed in; every reach has the elevation of its cell, and a slope is missing only if an elevation is.", "quantifier": "every list of reaches, outreach numbers, coordinates and elevations", "why_tests_cant": "all reach data", "anchors": ["dany/stream_util.py::Sfr2005.get_pygsflow_builder_object"]}
{"id": "C80", "title": "Builder defaults can be overridden", "statement": "get_pygsflow_builder_object of Sfr2005 accepts the documented defaults (strhc1, roughch, width1, min_slope, ...) as keyword arguments.", "quantifier": "every set of keyword arguments", "why_tests_cant": "tests pass no keyword arguments", "anchors": ["dany/stream_util.py::Sfr2005.get_pygsflow_builder_object"]}
{"id": "C81", "title": "Routed length through a cell", "statement": "hru_len gives every cell a positive length: twice the mean distance from its centre to the points where it touches the cell it drains to and the cells that drain to it - for a single inflow the length of the path entry, centre, exit - and is computed for every flow-direction array (exact arithmetic).", "quantifier": "every grid and flow-direction array", "why_tests_cant": "all coordinates and flow patterns", "anchors": ["dany/flow_directions.py::FlowDirections.hru_len", "dany/flow_directions.py::FlowDirections._calculate_hru_len", "dany/flow_directions.py::FlowDirections._get_shared_vertex"]}
{"id": "C82", "title": "The PRMS builder object is consistent", "statement": "get_pygsflow_builder_object of PrmsStreams uses the stream array passed in or now stored, whatever was computed before; ncascade is the number of cascade records, nreaches the number of stream cells, nsegments the number of segments (stream cells, or headwaters and confluences when grouping), and every stream segment number in the cascades lies between 0 and nsegments.", "quantifier": "every object history, valid flow-direction array, stream array and boundary", "why_tests_cant": "quantifies over call histories and networks", "anchors": ["dany/stream_util.py::PrmsStreams.get_pygsflow_builder_object", "dany/stream_util.py::PygsflowCascades"]}
{"id": "C83", "title": "Two equally low outlets are refused", "statement": "With the default check, constructing FlowDirections raises AssertionError exactly if two different cells share the lowest elevation, and accepts every DEM with a single lowest cell.", "quantifier": "every DEM (NaN cells included) with an elevation below 1e10", "why_tests_cant": "all DEMs", "anchors": ["dany/flow_directions.py::FlowDirections.__init__"]}
{"id": "C84", "title": "Ties are broken by position", "statement": "Where flow directions are settled without a search through flats they are determined by the neighbour order: a cell with one steepest neighbour flows there; among several, the earlier cells that already flow back are left out; one left over is taken, of two adjacent ones the first, of three that hang together the last. Directions that follow this rule everywhere are the directions computed.", "quantifier": "every grid, DEM, threshold and set of terminal cells", "why_tests_cant": "ties depend on the whole neighbourhood and on the order of the cells", "anchors": ["dany/flow_directions.py::FlowDirections._calculate_flowcell"]}
{"id": "C85", "title": "Only trapped cells are marked as sinks", "statement": "A cell is marked -2 only if it lies in a set of valid cells without exit: no cell of the set has a single steepest neighbour, and every steepest neighbour of a cell of the set is in the set or has that cell among its own steepest neighbours. In particular a cell from which irreversible steepest moves lead to a cell with one steepest neighbour is never marked.", "quantifier": "every grid, DEM, threshold and set of terminal cells", "why_tests_cant": "the search visits cells in an order that depends on the whole grid", "anchors": ["dany/flow_directions.py::FlowDirections._calculate_flowcell", "dany/flow_directions.py::FlowDirections._resolve_flats"]}
{"id": "C86", "title": "Control points add exactly their main stems", "statement": "delineate_streams with the array of threshold_from_control_points marks exactly the cells on the main stems above the control points and the cells whose accumulation reaches the threshold; the main stem goes to the largest inflow of all (if the neighbour table lists every inflow).", "quantifier": "every cycle-free flow-direction array, accumulation array (NaN included), set of control points and threshold", "why_tests_cant": "all networks and control points", "anchors": ["dany/stream_util.py::StreamBase.threshold_from_control_points", "dany/stream_util.py::StreamBase.delineate_streams"]}
{"id": "C87", "title": "Control-point streams run on to the outlet", "statement": "Streams delineated from control points run on downstream from every stream cell.", "quantifier": "every cycle-free flow-direction array, set of control points and threshold", "why_tests_cant": "all networks and control points", "anchors": ["dany/stream_util.py::StreamBase.threshold_from_control_points", "dany/stream_util.py::StreamBase.delineate_streams"]}
{"id": "C88", "title": "The default threshold selects the control-point streams", "statement": "threshold_from_control_points with its default threshold gives an array with which delineate_streams marks only the streams above the control points.", "quantifier": "every flow-direction array and set of control points", "why_tests_cant": "all networks and control points", "anchors": ["dany/stream_util.py::StreamBase.threshold_from_control_points", "dany/stream_util.py::StreamBase.delineate_streams"]}
{"id": "C89", "title": "Epsilon filling works for every array type", "statement": "fill_sinks with a positive eps leaves every cell that can reach the boundary with a strictly descending way to it, whatever number type the DEM array has (integer, float32, float64).", "quantifier": "every grid, DEM, DEM array type and eps > 0", "why_tests_cant": "rounding and truncation depend on the values", "anchors": ["dany/dem_conditioning.py::fill_sinks", "dany/dem_conditioning.py::_priority_flood"]}
{"id": "C90", "title": "Stream masks of every type give the same network", "statement": "A mask of stream cells passed to get_stream_connectivity (Sfr6, Sfr2005) gives the same connectivity whatever its array type (bool, int, float).", "quantifier": "every flow-direction array and mask", "why_tests_cant": "all networks and masks", "anchors": ["dany/stream_util.py::StreamBase._mf6_stream_connectivity", "dany/stream_util.py::StreamBase._mf2005_stream_connectivity"]}
{"id": "C91", "title": "A threshold that no cell reaches gives empty tables", "statement": "If no accumulation value reaches the threshold, the stream array is zero, the connectivity is empty and every table (connectiondata, packagedata, segment_data, reach_data, vectors, irunbnd) is empty or zero.", "quantifier": "every flow-direction array, accumulation array and threshold", "why_tests_cant": "all inputs below the threshold, every table", "anchors": ["dany/stream_util.py::Sfr2005.reach_data", "dany/stream_util.py::Sfr6.packagedata", "dany/stream_util.py::Sfr6._detuple"]}
{"id": "C92", "title": "From terrain to stream package", "statement": "On terrain where every cell but the outlets has a lower neighbour (for instance a filled DEM without pits on its rim) the whole chain flow_directions, flow_accumulation, delineate_streams, get_stream_connectivity, connectiondata/packagedata or segment_data/reach_data succeeds after any earlier calls; the reaches are the cells through which at least the threshold number of cells drain, numbered 1..n; the reach below has a larger number and its cell lies strictly lower; every stream leads to an outlet.", "quantifier": "every grid, downhill DEM (doubles, NaN cells included), threshold and history of calls", "why_tests_cant": "a statement about the composition of all steps, for all terrains", "anchors": ["dany/flow_directions.py::FlowDirections.flow_directions", "dany/flow_directions.py::FlowDirections.flow_accumulation", "dany/stream_util.py::StreamBase.delineate_streams", "dany/stream_util.py::Sfr6", "dany/stream_util.py::Sfr2005"]}
{"id": "C93", "title": "Segments that end at an outlet have outseg 0", "statement": "In segment_data the segment that ends at an outlet (a stream cell that flows to itself) has outseg 0.", "quantifier": "every flow-direction array and stream array, grouped or not", "why_tests_cant": "all networks", "anchors": ["dany/stream_util.py::StreamBase._mf2005_stream_connectivity", "dany/stream_util.py::Sfr2005.segment_data"]}
{"id": "C94", "title": "Calls do not write into the caller's arrays", "statement": "No call on any object (fill_sinks, FlowDirections and its methods, the stream classes and their methods other than the pyGSFLOW builder, for which see C100) changes an array or dictionary that existed before the call; arrays change only when the caller writes into them.", "quantifier": "every session: any number of objects on one modelgrid, any sequence of calls and of writes by the caller", "why_tests_cant": "quantifies over all sessions and all arrays ever handed out or passed in", "anchors": ["dany/dem_conditioning.py::fill_sinks", "dany/flow_directions.py::FlowDirections", "dany/stream_util.py::StreamBase", "dany/stream_util.py::PrmsStreams.get_cascades"]}
{"id": "C95", "title": "Objects do not disturb each other", "statement": "Whatever else happens in a session (other objects on the same modelgrid, new flow directions on the same FlowDirections object, writes to arrays the object does not hold), the answers of a FlowDirections object depend only on its elevations and its own calls, and those of a stream object only on the flow directions and accumulation at its construction and its own calls.", "quantifier": "every session and interleaving of calls", "why_tests_cant": "quantifies over all interleavings of calls on all objects", "anchors": ["dany/flow_directions.py::FlowDirections", "dany/stream_util.py::StreamBase.__init__", "dany/stream_util.py::Sfr6", "dany/stream_util.py::Sfr2005", "dany/stream_util.py::PrmsStreams"]}
{"id": "C96", "title": "Results belong to the caller", "statement": "Arrays and dictionaries returned by the methods, and arrays passed to set_stream_array, can be changed by the caller without changing what the objects answer later.", "quantifier": "every session and every returned or passed array", "why_tests_cant": "quantifies over all later calls", "anchors": ["dany/flow_directions.py::FlowDirections.flow_directions", "dany/flow_directions.py::FlowDirections.dem", "dany/stream_util.py::StreamBase.delineate_streams", "dany/stream_util.py::StreamBase.set_stream_array", "dany/stream_util.py::Sfr6.get_stream_connectivity"]}
{"id": "C97", "title": "Records show the elevations of the object's own DEM", "statement": "The top elevations in packagedata and reach_data are those of the DEM of the FlowDirections object the stream object was built from.", "quantifier": "every session with several DEMs on one modelgrid", "why_tests_cant": "depends on which stream objects were built in between", "anchors": ["dany/stream_util.py::Sfr6.__init__", "dany/stream_util.py::Sfr2005.__init__", "dany/stream_util.py::PrmsStreams.__init__", "dany/stream_util.py::Sfr6.packagedata", "dany/stream_util.py::Sfr2005.reach_data"]}
{"id": "C98", "title": "Many-to-many cascades do not depend on the burn threshold", "statement": "get_cascades(many2many=True) gives the same records whatever burn_threshold flow_directions was run with since the PrmsStreams object was built.", "quantifier": "every DEM, distance table, flow-direction array, stream array and session", "why_tests_cant": "all terrains and thresholds", "anchors": ["dany/stream_util.py::PrmsStreams._build_many_to_many_cascades", "dany/flow_directions.py::FlowDirections._calculate_slopes"]}
{"id": "C99", "title": "Many-to-many cascades cross flats and burned steps", "statement": "In get_cascades(many2many=True) every landscape cell that drains to another cell has a cascade, also across flats and across steps below the burn threshold.", "quantifier": "every slope table and flow-direction array", "why_tests_cant": "all terrains", "anchors": ["dany/stream_util.py::PrmsStreams._build_many_to_many_cascades"]}
{"id": "C100", "title": "The builder leaves the caller's tables alone", "statement": "Sfr2005.get_pygsflow_builder_object does not change the reach_data and segment_data tables that are passed to it.", "quantifier": "every reach table, segment table, irunbnd array and parameter dictionary passed in", "why_tests_cant": "all tables", "anchors": ["dany/stream_util.py::Sfr2005.get_pygsflow_builder_object"]}
{"id": "C101", "title": "A saved pyGSFLOW object reads back as it was saved", "statement": "After obj.write(f), read(f) returns an object of the same class with the same attributes and array contents as at the time of write, whatever happened in between (edits of the arrays, other objects, other files, a restart of the process); its arrays are new, and attributes that shared one array share one array again.", "quantifier": "every object, every history between write and read that does not write to f", "why_tests_cant": "all histories", "anchors": ["dany/stream_util.py::PygsflowCompatBase.write", "dany/stream_util.py::PygsflowCompatBase.read", "dany/stream_util.py::PygsflowStreams", "dany/stream_util.py::PygsflowCascades"]}
{"id": "C102", "title": "An interrupted write keeps the previous file", "statement": "If obj.write(f) raises or the process dies in it, f still holds what it held before, or the new object.", "quantifier": "every crash point of write", "why_tests_cant": "all crash points", "anchors": ["dany/stream_util.py::PygsflowCompatBase.write"]}
{"id": "C103", "title": "Torn files are refused", "statement": "A file left by an interrupted write is never read as anything but the object that was being written: read raises or returns that object; other files are not affected.", "quantifier": "every crash point, every object and every later history", "why_tests_cant": "all crash points", "anchors": ["dany/stream_util.py::PygsflowCompatBase.write", "dany/stream_util.py::PygsflowCompatBase.read"]}
{"id": "C104", "title": "Rows and columns agree between arrays and tables", "statement": "On a structured grid, a stream array given with rows and columns comes back unchanged; packagedata has exactly one record with cellid (0, i, j) for every stream cell in row i and column j; the i, j and node columns of reach_data name one and the same stream cell; and entry (i, j) of irunbnd is the label of the cell in row i, column j.", "quantifier": "every number of rows and columns, every mask and every valid flow-direction array", "why_tests_cant": "all grid sizes and masks", "anchors": ["dany/stream_util.py::Sfr6.packagedata", "dany/stream_util.py::Sfr6._detuple", "dany/stream_util.py::Sfr2005.reach_data", "dany/stream_util.py::Sfr2005.irunbnd", "dany/stream_util.py::StreamBase.set_stream_array", "dany/stream_util.py::StreamBase.stream_array"]}
{"id": "C105", "title": "Arrays of the wrong shape are refused", "statement": "set_stream_array and FlowDirections raise on an array whose shape is not that of the grid, e.g. a transposed array.", "quantifier": "every number of rows and columns and every array", "why_tests_cant": "all shapes", "anchors": ["dany/stream_util.py::StreamBase.set_stream_array", "dany/flow_directions.py::FlowDirections.__init__", "dany/flow_directions.py::FlowDirections.dem"]}
{"id": "C106", "title": "Topological sort does not depend on the order of insertion", "statement": "Topology.sort returns the same list (or raises the same exception) whatever the order in which the connections were added; only the connection given last for each segment counts.", "quantifier": "every two sequences of add_connection calls that agree on the last connection of every segment, every recursion limit", "why_tests_cant": "all insertion orders", "anchors": ["dany/stream_util.py::Topology.sort", "dany/stream_util.py::Topology.add_connection"]}
{"id": "C107", "title": "The order of points does not matter", "statement": "get_subbasins, threshold_from_control_points and flow_directions(terminal_cells=...) return the same arrays, labels included, whatever the order in which the points are listed and however often a point is repeated.", "quantifier": "every two lists of points in the same set of cells", "why_tests_cant": "all orders and repetitions", "anchors": ["dany/flow_directions.py::FlowDirections.get_subbasins", "dany/stream_util.py::StreamBase.threshold_from_control_points", "dany/flow_directions.py::FlowDirections.flow_directions"]}
{"id": "C108", "title": "Water balance at every cell", "statement": "The accumulation at a cell is its own cell (or area) plus the accumulations of the cells that flow directly into it; a cell accumulates only itself exactly if get_nidp reports no inflow.", "quantifier": "every valid flow-direction array and every cell that is not on a flow cycle", "why_tests_cant": "all flow-direction arrays", "anchors": ["dany/flow_directions.py::FlowDirections.flow_accumulation", "dany/flow_directions.py::FlowDirections.get_nidp"]}
{"id": "C109", "title": "Accumulation, watersheds and subbasins agree", "statement": "The cells (area) accumulated at a cell are the number (total area) of the cells of its watershed; two watersheds are nested or disjoint; the watershed of a pour point is the union of the subbasins of the pour points inside it, and for a single pour point the subbasin is the watershed.", "quantifier": "every valid flow-direction array, every pour point and list of pour points", "why_tests_cant": "all flow-direction arrays and points", "anchors": ["dany/flow_directions.py::FlowDirections.flow_accumulation", "dany/flow_directions.py::FlowDirections.get_watershed_boundary", "dany/flow_directions.py::FlowDirections.get_subbasins"]}
{"id": "C110", "title": "Filling does not depend on the order of neighbours", "statement": "fill_sinks returns the same DEM whatever the order in which modelgrid.neighbors lists the neighbours of a cell.", "quantifier": "every DEM, grid, eps, method and every two neighbour tables that list the same neighbours of every cell in different orders", "why_tests_cant": "all orders of all neighbour lists", "anchors": ["dany/dem_conditioning.py::fill_sinks", "dany/dem_conditioning.py::_priority_flood", "dany/dem_conditioning.py::_inner_flood_and_drain_fill"]}
{"id": "C111", "title": "Complete fill depends only on the terrain", "statement": "fill_sinks(method='complete') is monotone (raising the terrain anywhere never lowers the filled surface), commutes with an order-preserving change of vertical units, and gives the same elevations when the cells are numbered differently.", "quantifier": "every pair of DEMs one of which is nowhere lower, every order-preserving conversion, every renumbering of the cells", "why_tests_cant": "all DEMs and renumberings", "anchors": ["dany/dem_conditioning.py::fill_sinks", "dany/dem_conditioning.py::_priority_flood"]}
{"id": "C112", "title": "Priority fill depends only on the terrain", "statement": "fill_sinks(method='priority', epsilon>0) is monotone in the terrain and gives the same elevations when the cells are numbered differently.", "quantifier": "every pair of DEMs one of which is nowhere lower, every renumbering of the cells", "why_tests_cant": "all DEMs and renumberings", "anchors": ["dany/dem_conditioning.py::fill_sinks", "dany/dem_conditioning.py::_priority_flood"]}
{"id": "C113", "title": "Edits of flow directions act downstream only", "statement": "Changing entries of the flow-direction array changes accumulated cells, accumulated area and watersheds only at cells downstream of the changed cells (by the old or the new directions); re-routing one cell moves exactly the amount accumulated at that cell, and its watershed, from the old path to the new one.", "quantifier": "every pair of flow-direction arrays, every set of changed cells, every cell whose value is compared", "why_tests_cant": "all networks and all edits", "anchors": ["dany/flow_directions.py::FlowDirections.flow_direction_array", "dany/flow_directions.py::FlowDirections.flow_accumulation", "dany/flow_directions.py::FlowDirections.get_watershed_boundary"]}
{"id": "C114", "title": "Flow directions depend on comparisons of slopes only", "statement": "Two terrains whose slopes and elevations compare alike get the same flow directions; in exact arithmetic a shift of the datum or a change of vertical and horizontal units changes nothing; the direction of a cell with one steepest neighbour depends on its own and its neighbours' elevations only.", "quantifier": "every DEM, grid, threshold, terminal cells; every datum shift and every positive unit factor; every pair of DEMs that agree around a cell", "why_tests_cant": "all DEMs", "anchors": ["dany/flow_directions.py::FlowDirections.flow_directions", "dany/flow_directions.py::FlowDirections._calculate_slopes", "dany/flow_directions.py::FlowDirections._calculate_flowcell"]}
{"id": "C115", "title": "Flow directions do not depend on the numbering of cells", "statement": "When the cells are numbered differently or neighbours are listed in another order, flow_directions returns the same directions in the new numbering.", "quantifier": "every terrain, every renumbering of the cells and every order of the neighbour lists", "why_tests_cant": "all DEMs and renumberings", "anchors": ["dany/flow_directions.py::FlowDirections.flow_directions", "dany/flow_directions.py::FlowDirections._calculate_flowcell"]}
{"id": "C116", "title": "Drain fill returns the least draining surface", "statement": "fill_sinks(method='drain') returns the lowest surface on or above the terrain in which every cell has a chain of neighbours to the rim rising by at least epsilon per step (cells that no such surface below 1e10 drains are left at 1e10). Hence, for any epsilon >= 0, it is monotone in the terrain, changes nothing when applied twice, gives the same elevations when the cells are numbered differently and follows a change of datum or vertical units.", "quantifier": "every terrain below 1e10, grid, epsilon >= 0, every competing surface, every renumbering and monotone conversion", "why_tests_cant": "all terrains, all competing surfaces", "anchors": ["dany/dem_conditioning.py::fill_sinks", "dany/dem_conditioning.py::_flood_and_drain_fill"]}
{"id": "C117", "title": "Order of the three fills", "statement": "With the same epsilon, 'complete' <= 'drain' <= 'priority' at every cell reachable from the rim, and 'drain' exceeds 'complete' by at most N*epsilon.", "quantifier": "every terrain, grid and epsilon >= 0", "why_tests_cant": "all terrains", "anchors": ["dany/dem_conditioning.py::fill_sinks", "dany/dem_conditioning.py::_priority_flood", "dany/dem_conditioning.py::_flood_and_drain_fill"]}
{"id": "C118", "title": "The MODFLOW 6 package table is complete and can be expanded", "statement": "packagedata() has one record per reach, in reach order, with each value under its MODFLOW 6 column name (rwid, rbth, rhk, man, ustrf, ndv at their constants), a cell id that identifies the reach's cell, and as many connections as connectiondata() lists; packagedata(detuple=True) returns the same records with only the cell id spread over the columns k,i,j (structured), k,node (vertex) or node (unstructured grids).", "quantifier": "every network and every grid of the three kinds, every record and column", "why_tests_cant": "all networks", "anchors": ["dany/stream_util.py::Sfr6.packagedata", "dany/stream_util.py::Sfr6._detuple", "dany/stream_util.py::Sfr6.connectiondata"]}
{"id": "C119", "title": "Streams of a basin form one network ending at the pour point", "statement": "When delineate_streams is given the watershed of a pour point (get_watershed_boundary) as its basin and a constant threshold, the stream cells are exactly the cells draining through the pour point whose accumulation reaches the threshold; from any of them the stream runs on, cell by cell, to the pour point. The MODFLOW 6 network built on them has one outlet, the reach at the pour point, which has the highest number and is reached from every other; the MODFLOW-2005 network has one last segment, which ends at the pour point, has the highest number and is reached from every other.", "quantifier": "every acyclic direction grid, area, threshold and pour point, in exact and in binary64 arithmetic", "why_tests_cant": "all direction grids, thresholds and pour points", "anchors": ["dany/flow_directions.py::FlowDirections.get_watershed_boundary", "dany/stream_util.py::StreamBase.delineate_streams", "dany/stream_util.py::Sfr6.get_stream_connectivity"]}
{"id": "C120", "title": "Control points: order, repeats, additions, type of the threshold", "statement": "threshold_from_control_points depends on the set of cells the points lie in only: another order or repeated points give the same array (or no result in both cases). For the streams delineated with the returned thresholds: adding control points or lowering the threshold never removes a stream cell, and a new point adds exactly the cells of its main stem; whether the threshold is given as a whole number or as a float (which decides whether the stored values are cut to whole numbers) does not change the streams, although it changes the returned array.", "quantifier": "every direction grid, accumulation, neighbour table, threshold and list of control points", "why_tests_cant": "all grids and point lists", "anchors": ["dany/stream_util.py::StreamBase.threshold_from_control_points", "dany/stream_util.py::StreamBase.delineate_streams"]}
{"id": "C121", "title": "Units and datum of the flood-filled terrain", "statement": "fill_sinks with method 'priority' or 'complete' (with or without a modflow mask) does not depend on the unit or the datum of the elevations: after z -> a*z + k on the DEM (a > 0) and a*epsilon for epsilon, the filled terrain is a*out + k cell by cell, or the same exception is raised in both cases. More generally two terrains whose cells correspond by any order-preserving relation that epsilon respects are filled to corresponding terrains. The flow directions computed from the two filled terrains, with horizontal distances in any unit, are the same.", "quantifier": "every grid, DEM, epsilon, mask, unit factor a > 0 and datum shift k", "why_tests_cant": "all grids, terrains, units", "anchors": ["dany/dem_conditioning.py::fill_sinks", "dany/dem_conditioning.py::_priority_flood"]}
{"id": "C122", "title": "The MODFLOW 6 and the MODFLOW-2005 network of the same streams are the same river", "statement": "Sfr6 and Sfr2005 run on the same flow directions and stream array agree on where the water of every stream cell goes: the MODFLOW 6 reach of a cell is connected downstream to the reach of another cell exactly when the MODFLOW-2005 reach is followed by that cell's reach (the next reach of its segment, or the first reach of its outseg), whether or not segments are grouped.", "quantifier": "every valid direction grid and stream array, grouped or not", "why_tests_cant": "all direction grids and stream arrays", "anchors": ["dany/stream_util.py::Sfr6.get_stream_connectivity", "dany/stream_util.py::Sfr2005.get_stream_connectivity"]}
{"id": "C123", "title": "Accumulation as a function of the cell areas", "statement": "flow_accumulation(as_cells=False) treats the areas only as amounts: converting the unit of the areas converts the unit of the accumulation and, with the threshold converted too, leaves the streams unchanged; areas that are sums of two contributions are accumulated to the sums of the two accumulations; cells of one size give the accumulated number of cells times that size; larger areas never give a smaller accumulation or lose a stream cell.", "quantifier": "every flow-direction array (with cycles or entries out of range too), every array of areas", "why_tests_cant": "all areas and direction arrays", "anchors": ["dany/flow_directions.py::FlowDirections.flow_accumulation", "dany/stream_util.py::StreamBase.delineate_streams"]}
{"id": "C124", "title": "Results do not depend on the numbering of the cells", "statement": "The same flow directions in another cell numbering give the same accumulated cells and areas, watersheds, subbasins, streams, river network (MODFLOW 6 and MODFLOW-2005), segments and many-to-one cascades, expressed in the new numbering.", "quantifier": "every valid direction grid and every renumbering (permutation) of its cells", "why_tests_cant": "all permutations of all grids", "anchors": ["dany/flow_directions.py::FlowDirections.flow_accumulation", "dany/flow_directions.py::FlowDirections.get_watershed_boundary", "dany/flow_directions.py::FlowDirections.get_subbasins", "dany/stream_util.py::Sfr6.get_stream_connectivity", "dany/stream_util.py::Sfr2005.get_stream_connectivity", "dany/stream_util.py::PrmsStreams.get_cascades"]}
{"id": "C125", "title": "Accumulation on grids with flow cycles", "statement": "Where equal elevations have produced flow cycles, flow_accumulation still terminates with a definite meaning: the number (area) at any cell, on a cycle or not, is the number (total area) of the cells whose flow path reaches it before meeting a cycle cell; the terminal cells and cycle cells together hold every cell and every area exactly once, so nothing is lost or counted twice.", "quantifier": "every valid direction array, with any number of cycles", "why_tests_cant": "all direction arrays", "anchors": ["dany/flow_directions.py::FlowDirections.flow_accumulation"]}
{"id": "C126", "title": "Errors of the terrain are not amplified by filling", "statement": "If two DEMs of the same grid differ by at most d at every cell, the filled DEMs differ by at most d at every cell for 'complete' and 'drain' (at the cells not left at the 1e10 flood level), and by at most d + N*epsilon for 'priority'.", "quantifier": "every grid, pair of DEMs, epsilon >= 0 and bound d", "why_tests_cant": "all pairs of terrains", "anchors": ["dany/dem_conditioning.py::fill_sinks", "dany/dem_conditioning.py::_priority_flood", "dany/dem_conditioning.py::_flood_and_drain_fill"]}
{"id": "C127", "title": "Edits of the terrain act only on cells behind them", "statement": "With fill_sinks(method='complete'), a cell that drains to the rim over unedited cells is not filled higher after an edit of other cells, and keeps its filled elevation if it drains over unedited cells after the edit too. The ground of a filled depression does not matter: any change of the terrain at cells that were raised by the fill, to elevations not above the filled surface, leaves the filled surface as it was.", "quantifier": "every grid, DEM, set of edited cells and new elevations", "why_tests_cant": "all terrains and all edits", "anchors": ["dany/dem_conditioning.py::fill_sinks", "dany/dem_conditioning.py::_priority_flood"]}
{"id": "C128", "title": "NaN filling as a function of the valid elevations", "statement": "fill_nan_values with any of its methods is monotone in the valid elevations, commutes with a change of unit and datum (z -> a*z + k, a > 0) and does not amplify errors: valid elevations that differ by at most d give filled elevations that differ by at most d. Both calls return, or raise the same exception.", "quantifier": "every grid, NaN pattern, method, pair of elevation arrays with the same NaN cells", "why_tests_cant": "all elevations, units, NaN patterns", "anchors": ["dany/dem_conditioning.py::fill_nan_values"]}
{"id": "C129", "title": "Flow directions withstand small errors of the terrain", "statement": "If two DEMs of the same grid have the same NaN cells and differ by at most d elsewhere, both give the same flow direction at every cell whose steepest downhill neighbour is steeper than every other neighbour (and than flat) by more than 4*e, where d <= e*distance for its neighbours; no matter what the rest of the terrain looks like.", "quantifier": "every grid, pair of DEMs, cell with a clear steepest neighbour", "why_tests_cant": "all pairs of terrains", "anchors": ["dany/flow_directions.py::FlowDirections.flow_directions"]}
{"id": "C130", "title": "Cascades of a delineated watershed", "statement": "Many-to-one cascades limited to a basin that get_watershed_boundary returned for a pour point off flow cycles are: one link per cell upstream of the pour point, to the cell it flows to, which lies inside the basin; and a self-link at the cell below the pour point (at the pour point itself if it is terminal). Nothing else enters or leaves.", "quantifier": "every valid direction array, pour point and stream array", "why_tests_cant": "all networks", "anchors": ["dany/stream_util.py::PrmsStreams.get_cascades", "dany/flow_directions.py::FlowDirections.get_watershed_boundary"]}
{"id": "C131", "title": "Thresholds and basins of delineate_streams", "statement": "An array of equal thresholds acts like the number; the streams of a basin are the streams of the whole grid cleared outside the basin; thresholds of cells outside the basin do not matter; a basin that is the intersection of two gives the streams of one cleared outside the other.", "quantifier": "every accumulation array (cells or area, any number type), threshold and basins", "why_tests_cant": "all arrays", "anchors": ["dany/stream_util.py::StreamBase.delineate_streams"]}
{"id": "C132", "title": "Priority fill accepts NaN cells", "statement": "fill_sinks with method 'priority' or 'complete' (or a stream mask) returns for every DEM, NaN and infinite cells included: NaN cells stay NaN, numbers stay numbers and are never lowered, the rim and the unreachable cells keep their values, and every number that the flood reaches is connected by a chain of non-increasing (strictly decreasing when eps is effective) numbers to a boundary or stream cell or to a cell beside a NaN cell.", "quantifier": "every grid, DEM with NaN, eps >= 0, mask, method", "why_tests_cant": "all DEMs with all patterns of NaN", "anchors": ["dany/dem_conditioning.py::fill_sinks", "dany/dem_conditioning.py::_priority_flood"]}
{"id": "C133", "title": "NaN cells do not disturb the filling of the others", "statement": "A DEM in which every number already has a strictly descending chain of numbers to the rim is returned unchanged by fill_sinks, whatever NaN cells it contains.", "quantifier": "every grid and DEM with NaN", "why_tests_cant": "all DEMs with all patterns of NaN", "anchors": ["dany/dem_conditioning.py::fill_sinks", "dany/dem_conditioning.py::_priority_flood"]}
{"id": "C134", "title": "Drain fill keeps NaN cells", "statement": "fill_sinks(method='drain') returns for DEMs with NaN cells; NaN cells stay NaN and numbers are not lowered.", "quantifier": "every grid, DEM with NaN, eps >= 0", "why_tests_cant": "all DEMs with all patterns of NaN", "anchors": ["dany/dem_conditioning.py::fill_sinks", "dany/dem_conditioning.py::_flood_and_drain_fill"]}
{"id": "C135", "title": "Many-to-many cascades never run in circles", "statement": "get_cascades(many_to_many=True): following the cascade records from cell to cell never returns to the start, provided the stream array runs on (the cell below a stream cell is a stream cell, as delineate_streams returns it); every record of a landscape cell leads to a strictly lower neighbour.", "quantifier": "every acyclic flow direction array, DEM, neighbour table, distances > 0, burn threshold, stream array that runs on, boundary", "why_tests_cant": "all terrains and stream networks", "anchors": ["dany/stream_util.py::PrmsStreams", "dany/stream_util.py::PrmsStreams.get_cascades"]}
{"id": "C136", "title": "Water routed along many-to-many cascades is conserved", "statement": "If every cell passes its rain and what arrives along the many-to-many cascade fractions, the cells that pass nothing on end up holding exactly the total rain; the routed amounts exist and are unique.", "quantifier": "every acyclic flow direction array, DEM, neighbour table, stream array that runs on, boundary, distribution of rain", "why_tests_cant": "all terrains, networks and rains", "anchors": ["dany/stream_util.py::PrmsStreams", "dany/stream_util.py::PrmsStreams.get_cascades"]}
{"id": "C137", "title": "From elevations to cascades: all the rain reaches the outlets", "statement": "flow_directions, flow_accumulation(as_cells=True), delineate_streams(t) and get_cascades(many2many=True) called in this order on terrain where every cell that is no outlet has a strictly lower neighbour: all calls succeed, the cascades run in no circle, and whatever the rain, what the cascades route ends up in outlets only (a NaN cell keeps its own rain and receives none).", "quantifier": "every DEM with NaN cells, neighbour table (at most 99 per cell), distances > 0, burn threshold, terminals, cell areas, threshold t and distribution of rain; no outlet contested (C63), no neighbour of cell 0 higher than it (C71)", "why_tests_cant": "all terrains and rains", "anchors": ["dany/flow_directions.py::FlowDirections.flow_directions", "dany/flow_directions.py::FlowDirections.flow_accumulation", "dany/stream_util.py::PrmsStreams", "dany/stream_util.py::PrmsStreams.get_cascades"]}
{"id": "C138", "title": "Distances, reach lengths and gradients are accurate in double precision", "statement": "In IEEE double precision the distance between two cell centres at different places is finite, positive, symmetric and within a relative 1e-15 of the real distance; rlen and rchlen are 1.5 times the real distance, and the reach slope is the real drop over that length, within 1e-15; rgrd within 2e-15 where the water does not fall by less than 1e-6 (there rgrd is 0); no overflow, underflow or cancellation spoils them.", "quantifier": "every pair of centres with finite coordinates of size at most 2^400 whose coordinates are equal or differ by at least 2^-400, and every pair of elevations likewise", "why_tests_cant": "all doubles in the range", "anchors": ["dany/stream_util.py::Sfr6.packagedata", "dany/stream_util.py::Sfr2005.reach_data", "dany/flow_directions.py::FlowDirections.slope", "dany/flow_directions.py::FlowDirections._calculate_slopes"]}
{"id": "C139", "title": "In double precision the water flows to the neighbour that is really the steepest", "statement": "flow_directions computed in double precision from coordinates and elevations: where a cell drains to a neighbour, no neighbour's real-number descent (drop over distance) exceeds that of the chosen one by more than a relative 1e-14, and a neighbour that is the steepest by more than a relative 2e-14 is the one chosen: rounding decides only practical ties.", "quantifier": "every DEM with NaN cells, neighbour table, burn threshold and terminals; centres and elevations of moderate size (as in C138)", "why_tests_cant": "all doubles in the range", "anchors": ["dany/flow_directions.py::FlowDirections.flow_directions", "dany/flow_directions.py::FlowDirections._calculate_slopes"]}
{"id": "C140", "title": "The sizes of the stream tables", "statement": "packagedata and connectiondata have one record per stream cell, and their connections add up to twice the number of stream cells that flow to another stream cell; the grouped MODFLOW-2005 segments are numbered 1..n where n is the number of headwaters plus the number of confluences; there is one (node, segment, reach) row per stream cell that is on no closed ring; headwaters plus confluences equal stream ends plus the arms of all confluences, so a network whose confluences all have two arms has two segments for every headwater.", "quantifier": "every flow-direction array and every stream array of its size", "why_tests_cant": "all networks", "anchors": ["dany/stream_util.py::Sfr6.packagedata", "dany/stream_util.py::Sfr6.connectiondata", "dany/stream_util.py::StreamBase.get_stream_connectivity"]}
{"id": "C141", "title": "From a map to the outlets in double precision", "statement": "For cell centres and elevations given as doubles, where in real numbers every cell that is no outlet has a lower neighbour: flow_directions, flow_accumulation, delineate_streams and the many-to-many cascades all succeed in double precision, the cascades run in no circle, and whatever the rain, all of it ends in outlets (a NaN cell keeps its own), up to a relative 1e-13 per cell on the way; the terrain also qualifies for the tables of C92.", "quantifier": "every map with coordinates up to 2^400, neighbours 2^-10 to 2^59 apart, elevations up to 1e6 with NaN cells, burn threshold, terminals, areas, stream threshold and rain; outlets not adjacent and not within a relative 1e-14 of a tie (C63), no neighbour of cell 0 higher than it (C71)", "why_tests_cant": "all maps and rains, every rounding", "anchors": ["dany/flow_directions.py::FlowDirections.flow_directions", "dany/flow_directions.py::FlowDirections.flow_accumulation", "dany/stream_util.py::PrmsStreams", "dany/stream_util.py::PrmsStreams.get_cascades"]}
{"id": "C142", "title": "Fill first, then everything drains", "statement": "fill_sinks with a positive eps on any elevations without NaN (pits, flats and all), then flow_directions, flow_accumulation, delineate_streams and the many-to-many cascades on the filled raster: every call succeeds in double precision, the cascades run in no circle, and whatever the rain, all of it ends in outlets, up to a relative 1e-13 per cell on the way.", "quantifier": "every terrain in doubles and every eps of at least 2^-20; coordinates up to 2^400, neighbours 2^-10 to 2^59 apart; after the fill: elevations up to 1e6, rim cells that are no outlet have a lower neighbour (C65), outlets not adjacent and not within a relative 1e-14 of a tie (C63), no neighbour of cell 0 higher than it (C71)", "why_tests_cant": "all terrains, schedules of the fill and rains, every rounding", "anchors": ["dany/dem_conditioning.py::fill_sinks", "dany/flow_directions.py::FlowDirections.flow_directions", "dany/flow_directions.py::FlowDirections.flow_accumulation", "dany/stream_util.py::PrmsStreams.get_cascades"]}
{"id": "C143", "title": "A catchment can be modelled on its own", "statement": "Delineate the watershed of a cell, blank the elevations outside it (NaN) and run flow_directions again: inside the watershed every cell flows to the same cell as before, the pour point is an outlet and the blanked cells keep to themselves; the watershed, the accumulated cells and areas inside it and the streams delineated with it as basin are bitwise the same as on the full terrain.", "quantifier": "every grid, terrain, arithmetic (exact or floating point), addition and threshold; inside the watershed every cell but the pour point has one steepest neighbour, which is lower (ties: see C84); terminal cells inside only at the pour point", "why_tests_cant": "all terrains and clippings; the two runs solve different cells in a different order", "anchors": ["dany/flow_directions.py::FlowDirections.flow_directions", "dany/flow_directions.py::FlowDirections.flow_accumulation", "dany/flow_directions.py::FlowDirections.get_watershed_boundary", "dany/stream_util.py::StreamBase.delineate_streams"]}
{"id": "C144", "title": "Cell areas are accurate in double precision", "statement": "The cell areas computed from the vertices in double precision are finite and differ from the true polygon areas by at most n (n + 3) X Y / 2^53 for a cell with n corners and coordinates |x| <= X, |y| <= Y (plus a term below 1e-316); they are exact when the corners lie on a lattice whose units are powers of two; and every cell gets bit for bit the area of its own polygon, whatever the other cells look like.  (They do depend on the position of the cell: far from the origin a unit square can get area 0, within that bound.)", "quantifier": "all polygons with up to 2^20 finite corners and |x| |y| <= 2^960; for exactness all lattices and cells with 2 n |i| |j| < 2^53", "why_tests_cant": "rounding errors over all vertex coordinates", "anchors": ["dany/flow_directions.py::FlowDirections._shoelace_area"]}
{"id": "C145", "title": "Subbasin maps fit together", "statement": "Subbasin numbers grow downstream: a labelled cell never has a larger number than a labelled cell on its flow path, and of two pour points the upstream one has the smaller number.  With more pour points the map is refined: cells that share a subbasin under the larger set shared one (or none) under the smaller set, and a cell without a subbasin under the larger set had none.  One new pour point takes its subbasin out of a single old one and leaves the grouping of all other cells as it was.  The sizes of the subbasins of a pour point and of the pour points above it add up to the size of its watershed, and the number of cells accumulated at a pour point is the size of its own subbasin plus what is accumulated at the pour points draining directly into it; likewise for areas.", "quantifier": "all flow direction arrays, all sets of pour points other than cell 0 without two on a common flow cycle; the budget for pour points not on a flow cycle", "why_tests_cant": "every set of pour points on every flow network", "anchors": ["dany/flow_directions.py::FlowDirections.get_subbasins", "dany/flow_directions.py::FlowDirections.flow_accumulation"]}
{"id": "C146", "title": "Lateral inflow of reaches adds up", "statement": "What is accumulated at a stream reach - the number of cells, or the area - is what its own landscape brings (the cells whose flow path meets the cell of the reach before any other stream cell) plus what is accumulated at the reaches that run directly into it, in the MODFLOW 6 as in the MODFLOW-2005 network.  In the same way what is accumulated at the last reach of a MODFLOW-2005 segment is what the landscape of the segment brings plus what is accumulated at the last reaches of the segments whose outseg it is.  Every cell that drains into a stream is in the landscape of exactly one reach, and what is accumulated at a reach is the sum of the landscapes of all reaches upstream of it, itself included.  The reaches at the ends of the network together account for every cell that drains into a stream, each once.  Streams delineated with a constant threshold meet the condition of having no gaps.", "quantifier": "all flow direction arrays, all stream arrays without gaps (between two stream cells on one flow path only stream cells), reaches that are not on a flow cycle", "why_tests_cant": "every stream network on every flow network", "anchors": ["dany/flow_directions.py::FlowDirections.flow_accumulation", "dany/stream_util.py::StreamBase._mf6_stream_connectivity", "dany/stream_util.py::StreamBase._mf2005_stream_connectivity"]}
