# Formal model of jlarsen-usgs/dany in Rocq (Coq 8.16.1)

`dany` is three Python modules: DEM conditioning (`dem_conditioning.py`), flow directions,
accumulation and basins (`flow_directions.py`) and stream networks (`stream_util.py`).  Every
function of the three modules that computes something is modelled by a Gallina function that
follows it branch by branch; section 3 lists the few that are not.

## 1. How the model is built

* Python exceptions are values: `res A := Ok a | Err e` (`Py.v`).
* A `while` loop is a `Fixpoint` with explicit fuel that returns `Err OutOfFuel` when the fuel
  runs out.  "Terminates" is: a fuel is *given in the statement* with which the call is `Ok`.
  "Loops for ever" is: for *every* fuel the result is `Err OutOfFuel`.
* Python's recursion limit (`Topology._sort_util`) is an explicit parameter; running out of it is
  `Err Recursion`, as `RecursionError` is in Python.
* NumPy indexing wraps negative indices and raises `IndexError` otherwise: `npget`, `npset`.
* Dicts are association lists in insertion order; `set`s are lists without
  duplicates (the sets the code iterates over are singletons or are sorted first).
* Method calls on an object with caches (`FlowDirections`, `Sfr6`, `Sfr2005`, `PrmsStreams`) are
  transitions of a state machine; a *history* is a list of calls (`MObj.v`, `MSobj.v`).
* `Spec.v` and `SpecGeo.v` hold the notions the theorems are stated with (paths, drainage, spill
  elevation, upstream sets, first pour point, steepest neighbour, polygon area, ...).  They import
  no model file.  `Props*.v` hold the property theorems with their non-vacuity examples (Modules
  `Ex..`), `L*.v` the lemmas.

| files | content | properties |
| --- | --- | --- |
| `Py` | results, arrays, dicts, sorting | |
| `Spec`, `SpecGeo` | specification vocabulary, independent of the model | |
| `MHeap LHeap`, `MFill LFill LFill2-4 LEdge LDrain`, `LNan MNanQ Grids`, `PropsFill` | `dem_conditioning.py`: heap, priority flood, drain fill, edges, NaN filling | C01-C17 |
| `MFlow LGraph LAcc LAcc2 LWs LTopo LSub`, `PropsAcc PropsBasin` | accumulation, nidp, watersheds, subbasins, `Topology` | C18-C25, C27, C28, C31-C33 |
| `MStream LStream LConn PropsStream` | streams, MF6 connectivity, connection and package data | C29, C30, C34-C41 |
| `LSeg LSeg2-4 PropsSeg` | MF2005 connectivity | C42-C46 |
| `LReach PropsReach` | segment and reach data | C47-C49 |
| `LRun PropsRun` | `irunbnd` | C50, C51 |
| `LCasc PropsCasc` | cascades | C52-C55, C70, C71 |
| `PropsCtl PropsCtl2 PropsCtlF` | control points | C56, C57, C86-C88 |
| `LVec PropsVec` | stream lines | C69 |
| `MDir LDir LDir2-4 LRat PropsDir` | slopes, `_calculate_flowcell` with flat resolution | C59-C65, C72 |
| `MObj PropsObj` | `FlowDirections` objects under any history of calls | C26, C66 |
| `MSobj PropsSobj PropsPrms` | `Sfr6`, `Sfr2005`, `PrmsStreams` objects under any history | C58, C82 |
| `MGeo LGeo PropsGeo` | areas, slope, aspect, vectors (real arithmetic) | C67, C68, C73, C74 |
| `MNum PropsNum` | numeric columns of package/reach data, builder, `hru_len` | C75-C81 |
| `PropsApi` | the answers of the objects after any history of calls, for the claims on single functions | C19-C52, C58, C69 |
| `LTie`, `PropsTie` | the check for one outlet, tie rule, marked sinks | C83-C85 |
| `LAcc3 PropsAcc2 PropsAccF` | accumulation with any addition, IEEE doubles | C20, C21, C30 for doubles |
| `LFloat32 PropsType` | DEM arrays of integers and of float32 | C89 |
| `MMask PropsMask` | stream masks of any array type | C90 |
| `PropsEmpty` | networks without streams | C91 |
| `LDepth PropsDepth` | the stack frames `Topology.sort` needs | C33, C34, C44 |
| `PropsPipe` | the chain of calls from the elevations to the stream tables | C92 |
| `PropsOutlet` | outseg at outlets | C93 |
| `MWorld LWorld LWorld2-5 PropsWorld PropsWorld2-3 PropsWorldEx PropsWorldF` | sessions: several objects on one modelgrid, arrays on a heap, copies and sharing | C94-C98 |
| `PropsCasc2` | which landscape cells have a many-to-many cascade | C71, C99 |
| `MBuild PropsBuild` | the pyGSFLOW builder with shared tables | C100 |
| `MSave PropsSave` | write and read of the pyGSFLOW objects: files, crashes, pickle opcodes | C101-C103 |
| `MShape PropsShape` | rows and columns of arrays and tables on structured grids | C104, C105 |
| `PropsCascF` | the cascade fractions in binary64, boundaries in any arithmetic | C54, C55 |
| `PropsFill2` | the stream line after a fill with a stream mask | C09 |
| `PropsCasc3` | the records of many-to-one cascades with a boundary | C70 |
| `PropsCtl3` | for which control points the search returns | C57 |
| `PropsSub0` | pour points at cell 0 | C28 |
| `PropsIso` | isolated cells | C72 |
| `PropsOrder` | results that do not depend on the order of points or connections | C106, C107 |
| `PropsAgree` | water balance; accumulation against watersheds and subbasins | C108, C109 |
| `LPerm`, `PropsPerm`, `PropsPermF` | fills of the same terrain with neighbours listed, cells numbered or elevations measured differently | C110-C112 |
| `PropsEdit PropsEdit2` | edited flow-direction arrays | C113 |
| `PropsDirInv`, `PropsDirNum` | flow directions under a change of datum, units, numbering | C114, C115 |
| `PropsSave2` | constructor arguments read back by name | C101 |
| `PropsLeast`, `PropsLeastF` | drain fill as the least draining surface; the three fills compared | C116, C117 |
| `MPkg`, `PropsPkg` | Sfr6.packagedata as a table with columns, `_detuple` | C118 |
| `PropsNet`, `PropsNetF` | streams delineated inside a watershed: one network with one outlet | C119 |
| `PropsCtl4` | control points: order, repeats, additions, type of the threshold | C120 |
| `PropsUnits` | units and datum of the flood fills | C121 |
| `PropsSame` | MODFLOW 6 and MODFLOW-2005 networks agree | C122 |
| `PropsAccLin` | accumulation as a function of the areas | C123 |
| `PropsRenum` | other cell numberings | C124, C51 |
| `PropsAccCyc` | accumulation with flow cycles | C125 |
| `PropsCase` | spellings of the method names | C16 |
| `PropsStable`, `PropsStableF` | stability and locality of the fill | C126, C127 |
| `PropsNanStable` | NaN filling as a function of the elevations | C128 |
| `PropsRobust` | flow directions under small errors | C129 |
| `PropsCasc4` | cascades of a watershed | C130 |
| `PropsThr` | thresholds and basins | C131 |
| `LAny PropsNanFill PropsNanFillF` | filling DEMs with NaN cells | C132-C134 |
| `LCircle PropsCircle PropsCircleF PropsWater` | cascades run in no circle, conserve water | C135, C136 |
| `PropsRain PropsRainF` | elevations to cascades: the rain reaches the outlets | C137, C99 |
| `MNumF PropsNumF PropsNumF2` | coordinates, lengths and gradients in binary64 | C138, C139, C79 |
| `PropsCount` | sizes of the stream tables | C140 |
| `PropsRainF2` | from cell centres and elevations in doubles to the outlets | C141 |
| `PropsRainFEx` | a terrain with a pit that meets every premise of C142 | C142 |
| `PropsRobustF` | flow directions withstand errors, in binary64 | C129 |
| `PropsIter` | the priority flood takes every reachable cell exactly once | C07 |
| `PropsClip` | clipping a terrain to a watershed | C143 |
| `MGeoF PropsGeoF` | cell areas in double precision | C144 |
| `PropsSubb` | subbasin maps: numbering, refinement, budget | C145 |
| `PropsLat`, `PropsLatSeg` | lateral inflow of reaches and of segments | C146 |
| `LFloat PropsFloat` | IEEE binary64 satisfies the laws assumed above | C03, C04, C10, C64, C65 for doubles |

### Arithmetic

The fill and flow-direction algorithms use numbers only through comparison, `x + eps` and a slope
quotient.  Those models are generic in a record of operations (`elev`, `slope_ops` in `Spec.v`), and the
theorems assume the laws in `elev_laws`, `order_laws`: comparisons on non-NaN values are those of an
integer rank / a strict weak order, `x + eps` is monotone and not below `x`.  `PropsFill`/`PropsDir` discharge
the laws for Z and Q; `LFloat.v` discharges them for IEEE binary64 with round-to-nearest-even (Flocq's
`BinarySingleNaN`), so the theorems hold for the doubles NumPy uses, including rounding and absorption.
Accumulated areas are treated both exactly and in binary64 (`PropsAccF`: error bounds), distances, lengths and
gradients too (`MNumF PropsNumF`: `x ** 2` is one rounded multiplication, `np.sqrt` rounds correctly).  Other areas,
fractions and means are exact (Z, Q or R) and the property says "exact arithmetic".

## 2. Trusted base

* Coq 8.16.1's kernel (`coqchk` is run by the gate); no axioms are declared in this development, no
  functors, module types, `Admitted`, plugins or disabled checks.
* The hand translation from Python to Gallina.  Each definition cites the lines it models.  As a check of
  the translation (tests, not proofs) `tools/conformance.py` runs the model by `vm_compute` on the regression
  data shipped in /repo/data; all comparisons agree.
* The axioms below, all from Coq's standard library (`Reals`, `FunctionalExtensionality`, `Classical_Prop`).
  They come in with the real numbers only.  `coqchk` additionally lists
  library-internal module-type entries (`Coq.Reals.Rdefinitions.RbaseSymbolsImpl`/`RinvImpl`, `Coq.ssr.ssrunder.Under_rel`).

### Print Assumptions, theorem by theorem (written by `tools/assumptions.py`)

**none (closed under the global context)** (407 theorems):
`C01_flood_never_lowers`, `C01_drain_never_lowers`, `C02_flood_keeps_rim`, `C02_drain_keeps_rim`, `C03_priority_removes_sinks`, `C04_complete_is_spill`, `C05_overfill_bounded`, `C06_drained_unchanged`, `C06_idempotent`, `C06_complete_idempotent`, `C07_flood_terminates`, `C07_each_cell_once`, `C08_streams_drain`, `C09_stream_pits_refuted`, `C09_complete_has_no_stream_pits`, `C09_at_most_eps_below`, `C10_drain_terminates`, `C11_drain_removes_sinks`, `C12_drain_is_complete`, `C13_edge_cells`, `C14_nan_fill_returns`, `C14_nan_fill_never_returns`, `C14_nan_fill_diverges`, `C15_nan_fill_result`, `C16_case_insensitive`, `C16_mask_forces_priority`, `C16_complete_is_priority_with_eps_0`, `C16_unknown_runs_drain`, `C16_any_spelling`, `C16_every_name`, `C16_nan_any_spelling`, `C16_nan_other_names_refused`, `C17_priority_queue`, `C18_accumulation_finishes`, `C19_accumulated_cells`, `C19_object_cells`, `C20_accumulated_area`, `C20_object_areas`, `C20_any_addition`, `C21_cells_conserved`, `C21_area_conserved`, `C22_sinks_leak_refuted`, `C22_negative_entries_wrap`, `C22_sink_feeds_cell_N_minus_2`, `C23_nidp_counts_inflows`, `C23_object_nidp`, `C24_watershed_is_upstream`, `C24_object_first_watershed`, `C25_watershed_finishes`, `C26_watershed_misses_cells_refuted`, `C26_watershed_extra_cell_refuted`, `C26_stale_reversal`, `C26_first_directions_current_partial`, `C26_watershed_of_latest_partial`, `C26_other_answers_current`, `C26_stored_accumulation`, `C26_edits_are_seen`, `C26_first_delineation_decides`, `C27_subbasins_first_pour`, `C27_every_cell_covered`, `C27_common_cycle_refuted`, `C27_object_first_subbasins`, `C28_pour_at_cell_0_dropped_refuted`, `C28_pour_above_cell_0_fails_refuted`, `C28_pour_above_cell_0_fails`, `C28_pour_at_cell_0_ignored`, `C28_cell_0_exactly`, `C29_cells`, `C29_threshold_monotone`, `C29_object`, `C29_set_stream_array`, `C30_streams_run_on`, `C30_streams_run_on_cells`, `C30_streams_run_on_any_addition`, `C31_sort_is_permutation`, `C32_sort_is_topological`, `C33_long_rivers_fail_refuted`, `C33_frames_needed`, `C33_path_length_suffices`, `C33_only_recursion_error`, `C33_result_independent_of_limit`, `C33_sort_succeeds_partial`, `C34_reaches_number_the_cells`, `C34_connectivity_succeeds`, `C34_object_succeeds`, `C34_short_rivers_succeed`, `C34_long_river_fails`, `C34_object_short_rivers`, `C34_object_long_river_fails`, `C35_graph_follows_flow`, `C35_sink_is_linked_refuted`, `C35_object`, `C36_numbers_increase`, `C36_numbers_increase_off_cycles`, `C37_numbering_depends_on_cells_only`, `C37_renumbering_repeats`, `C38_connectiondata`, `C38_object`, `C38_object_given`, `C39_downstream_entries_negative`, `C39_sign_lost_on_cycle`, `C40_packagedata`, `C40_object`, `C41_packagedata_given_fails_refuted`, `C41_index_error_refuted`, `C41_packagedata_given_example_partial`, `C41_object_refuted`, `C42_segments_partition_the_streams`, `C42_reaches_in_order`, `C42_array_shows_segments`, `C43_segment_graph`, `C43_object`, `C44_grouping_finishes`, `C44_connectivity_succeeds`, `C44_object_succeeds`, `C44_short_rivers_succeed`, `C44_ungrouped_short_rivers_succeed`, `C44_object_short_rivers`, `C45_cell_lost_refuted`, `C45_ring_cells_mislabelled`, `C46_segments_increase`, `C46_ungrouped`, `C47_segment_data`, `C47_object`, `C47_object_first_use`, `C48_reach_data`, `C49_reach_data_fails_refuted`, `C49_when_reach_data_fails`, `C49_ungrouped_succeeds`, `C50_irunbnd_covers_draining_cells`, `C50_irunbnd_exact`, `C50_object`, `C50_object_given`, `C50_object_first_use`, `C51_label_change_refuted`, `C51_river_refuted`, `C51_numbering_decides_refuted`, `C51_first_cell_partial`, `C52_cascades_are_flow_links`, `C52_object`, `C52_object_first_use`, `C53_confluence_refuted`, `C53_records_per_cell`, `C54_fractions_add_up`, `C54_cascades_succeed`, `C54_any_arithmetic_succeeds`, `C55_cascade_leaves_basin_refuted`, `C55_outlets_cascade_out_refuted`, `C55_starts_inside`, `C56_thresholds_follow_main_stem`, `C57_climb_without_end_refuted`, `C57_two_cycle_refuted`, `C57_returns_exactly`, `C57_off_cycles`, `C58_sfr6_stale_refuted`, `C58_vectors_break_sfr6_refuted`, `C58_sfr2005_stale_refuted`, `C58_prms_stale_refuted`, `C58_connectiondata_ignores_new_streams`, `C58_segment_data_ignores_new_streams`, `C58_vectors_replace_graph`, `C58_sfr6_after_connectivity_partial`, `C58_sfr6_first_use_partial`, `C58_sfr2005_after_connectivity_partial`, `C58_sfr2005_first_use_partial`, `C58_prms_after_connectivity_partial`, `C58_no_streams_yet`, `C59_steepest_neighbour`, `C60_unique_steepest_wins`, `C61_always_computed`, `C62_nan_cells_isolated`, `C63_contested_outlet_refuted`, `C63_terminal_cell_refuted`, `C63_uncontested_outlet_partial`, `C64_downhill_terrain_drains`, `C65_mutual_steepest_refuted`, `C65_rim_pit_refuted`, `C65_filled_terrain_drains_partial`, `C66_any_history`, `C66_repeated_call_same`, `C69_lines_trace_segments`, `C69_every_segment_has_a_line`, `C69_ring_has_no_line`, `C69_object`, `C69_object_segments`, `C70_outlet_of_basin_refuted`, `C70_records_exactly`, `C70_closed_basins`, `C71_links_dropped_refuted`, `C71_no_cascade_refuted`, `C99_which_cells_cascade`, `C59_padding_cell_refuted`, `C61_isolated_corner_refuted`, `C72_isolated_cells`, `C80_keywords_fail_refuted`, `C80_defaults_cannot_be_set_refuted`, `C80_group_segments_accepted`, `C82_follows_current_streams`, `C82_ungrouped`, `C82_grouped`, `C82_succeeds`, `C83_one_outlet_check`, `C84_ties_by_position`, `ties_exact`, `C85_marked_cells_are_trapped`, `C85_cells_with_an_exit_not_marked`, `C86_stems_and_large_streams`, `C86_largest_of_all_inflows`, `C87_streams_end_in_the_landscape_refuted`, `C87_run_on_exactly`, `C87_run_on_cells`, `C88_everything_is_a_stream_refuted`, `C88_default_threshold_refuted`, `C88_only_the_stems_partial`, `C89_absorbed_eps`, `C89_integer_refuted`, `C89_integer_step`, `C89_whole_eps`, `C89_pit_left`, `C90_boolean_mask_refuted`, `C90_boolean_mask_exactly`, `C90_wide_types`, `C90_mf2005_any_type`, `C90_mf2005_boolean_array_refuted`, `C91_reach_data_refuted`, `C91_detuple_refuted`, `C91_empty_network_tables`, `C91_detuple_nonempty`, `C93_outlet_flows_to_itself_refuted`, `C93_no_outlet_refuted`, `C93_ungrouped_outlet`, `C94_calls_leave_arrays_alone`, `C94_only_own_edits_change_an_array`, `C95_streams_answer_as_if_alone`, `C95_streams_forget_the_flow_object`, `C95_flow_answers_as_if_alone`, `C96_flow_results_are_live_refuted`, `C96_stream_array_is_live_refuted`, `C96_connectivity_is_live_refuted`, `C96_streams_share_the_flow_array_refuted`, `C96_copies_belong_to_the_caller`, `C96_unheld_stays_unheld`, `C96_grid_top_is_never_handed_out`, `C97_records_show_the_own_dem_refuted`, `C97_records_show_the_last_dem`, `C97_grid_top_is_the_last_dem`, `C97_records_use_the_grid_top`, `C98_cascades_ignore_the_threshold`, `C98_exact`, `cascades_without_threshold`, `exact_laws`, `C99_flats_have_no_cascade_refuted`, `C99_witness_refuted`, `C99_which_cells_cascade`, `C99_which_cells_cascade_inside`, `C101_saved_objects_read_back`, `C101_sessions_stay_valid`, `C101_cascades_arguments_read_back`, `C101_streams_arguments_read_back`, `C102_interrupted_write_loses_the_file_refuted`, `C102_other_files_stay`, `C103_torn_files_are_refused`, `C102_other_files_stay`, `C104_cell_ids_and_nodes_agree`, `C104_stream_array_keeps_its_entries`, `C104_packagedata_cell_ids`, `C104_detuple_keeps_records`, `C104_detuple_refuses_no_records`, `C104_reach_data_rows_and_columns`, `C104_irunbnd_rows_and_columns`, `C105_transposed_accepted_refuted`, `C105_taken_in_order`, `C105_wrong_size_refused`, `C106_sort_any_insertion_order`, `C106_permuted_connections`, `C107_subbasins_any_order`, `C107_control_points_any_order`, `C107_terminal_cells_any_order`, `C108_cells_balance`, `C108_area_balance`, `C108_headwaters`, `C109_accumulation_is_watershed_size`, `C109_area_is_watershed_area`, `C109_watersheds_nest`, `C109_watershed_is_union_of_subbasins`, `C109_single_subbasin_is_watershed`, `C110_flood_any_neighbour_order`, `C110_drain_any_neighbour_order`, `C111_complete_monotone`, `C111_complete_any_units`, `C111_complete_any_numbering`, `C112_priority_monotone_refuted`, `C112_priority_numbering_refuted`, `C112_priority_monotone_within`, `C112_priority_numbering_within`, `C113_watershed_untouched`, `C113_accumulation_untouched`, `C113_any_addition_untouched`, `C113_upstream_untouched`, `C113_reroute_cells`, `C113_reroute_area`, `C113_reroute_watershed`, `C114_directions_depend_on_comparisons`, `C114_any_datum`, `C114_any_units`, `C114_local`, `C115_any_numbering_without_ties`, `C115_ties_follow_the_numbering_refuted`, `C115_neighbour_order_refuted`, `C116_drain_is_least`, `C116_drain_monotone`, `C116_drained_unchanged`, `C116_drain_twice`, `C116_drain_any_numbering`, `C116_drain_any_units`, `C117_complete_below_drain`, `C117_drain_below_priority`, `C117_drain_below_priority_refuted`, `C117_priority_below_drain_refuted`, `C118_cell_ids_identify`, `C119_network_of_a_basin`, `C119_network_of_a_basin_cells`, `C120_order_and_repeats_do_not_matter`, `C120_more_control_points_only_add`, `C120_what_a_control_point_adds`, `C120_streams_do_not_depend_on_how_thresholds_are_stored`, `C120_type_of_threshold_irrelevant`, `C120_stored_thresholds_are_cut`, `C121_flood_corresponds`, `C121_flood_any_units`, `C121_directions_of_filled_any_units`, `C122_same_river`, `C122_same_river_ungrouped`, `C123_areas_correspond`, `C123_any_unit`, `C123_streams_any_unit`, `C123_contributions_add_up`, `C123_cells_of_one_size`, `C123_larger_areas`, `C123_larger_areas_keep_streams`, `C124_cells_any_numbering`, `C124_area_any_numbering`, `C124_watershed_any_numbering`, `C124_subbasins_any_numbering`, `C124_streams_any_numbering`, `C124_network6_any_numbering`, `C124_network2005_any_numbering`, `C124_segments_any_numbering`, `C124_cascades_any_numbering`, `C125_cells_with_cycles`, `C125_area_with_cycles`, `C125_cells_conserved`, `C125_area_conserved`, `C125_any_addition`, `C126_complete_within`, `C126_complete_not_amplified`, `C126_priority_not_amplified`, `C126_drain_not_amplified`, `C127_edits_act_behind`, `C127_ground_of_depressions`, `C128_above`, `C128_monotone`, `C128_any_units`, `C128_not_amplified`, `C129_directions_withstand_errors`, `C130_cascades_of_a_watershed`, `C131_constant_array`, `C131_basin_clips`, `C131_thresholds_outside`, `C131_basins_intersect`, `C132_flood_with_nan`, `C132_flood_with_nan`, `C134_nan_inside_becomes_1e10`, `C134_drain_reads_nan_as_1e10`, `C134_drain_with_nan_returns`, `C135_landscape_cascades_descend`, `C135_no_circles`, `C135_delineated_streams_run_on`, `C135_streams_with_gaps_refuted`, `C136_water_is_conserved`, `C136_routing_is_defined`, `C136_many_to_one_multiplies_refuted`, `C137_rain_reaches_the_outlets`, `C140_connections`, `C140_headwaters_and_confluences`, `C140_segments`, `C140_two_segments_for_every_headwater`, `C143_clipped_directions`, `C143_clipped_watershed`, `C143_clipped_accumulation`, `C143_clipped_streams`, `C145_numbers_grow_downstream`, `C145_more_points_refine`, `C145_new_point_splits_one`, `C145_sizes_add_up`, `C145_budget`, `C145_area_budget`, `C146_reach_cells`, `C146_reach_areas`, `C146_reach_cells_2005`, `C146_reach_cells_2005_ungrouped`, `C146_ends_carry_all`, `C146_segment_cells`, `C146_segment_areas`, `C146_one_reach_each`, `C146_reach_is_sum_of_landscapes`, `C146_delineated_streams_have_no_gaps`

**`ClassicalDedekindReals.sig_forall_dec`, `ClassicalDedekindReals.sig_not_dec`, `Classical_Prop.classic`, `FunctionalExtensionality.functional_extensionality_dep`** (70 theorems):
`C03_binary64`, `C04_binary64`, `C09_binary64`, `C10_binary64`, `C20_binary64`, `C20_binary64_relative`, `C21_binary64`, `C30_binary64`, `C54_binary64`, `C54_binary64_few`, `C64_binary64`, `C65_binary64_partial`, `C68_succeeds`, `C68_aspect_range`, `C68_vectors_point_downstream`, `C68_self_draining`, `C74_sink_points_elsewhere_refuted`, `C79_binary64`, `C79_binary64_accurate`, `C79_binary64_default`, `C86_binary64`, `C89_float32_refuted`, `C92_terrain_to_sfr6`, `C92_terrain_to_sfr2005`, `C92_filled_terrain`, `C98_binary64`, `C98_binary64_few`, `C98_binary64_refuted`, `b64_wide_laws`, `b64_few_laws`, `C99_binary64`, `C110_flood_binary64`, `C111_monotone_binary64`, `C116_drain_is_least_binary64`, `C116_drain_monotone_binary64`, `C116_drain_twice_binary64`, `C119_network_of_a_basin_binary64`, `C120_binary64`, `C123_larger_areas_binary64`, `C126_binary64`, `C127_binary64`, `C129_binary64`, `C132_binary64`, `C133_drained_terrain_with_nan_unchanged_refuted`, `C134_nan_stays_nan_refuted`, `C134_binary64`, `C135_binary64`, `C136_binary64`, `C136_binary64_routing_is_defined`, `C137_binary64`, `C137_binary64_rain_reaches_the_outlets`, `C138_distance`, `C138_distance_is_symmetric`, `C138_lengths`, `C138_outlet_length`, `C138_reach_slope`, `C138_gradient`, `C138_small_drops_are_flat`, `C138_distances_for_cascades`, `C139_steepest_in_real_numbers`, `C139_clear_winner`, `C141_from_the_map_to_the_outlets`, `C141_falling`, `C141_downhill`, `C142_filled_terrain_is_downhill`, `C142_fill_then_drain`, `C144_accuracy`, `C144_exact`, `C144_areas_of_cells`, `C144_position_matters`

**`ClassicalDedekindReals.sig_forall_dec`, `ClassicalDedekindReals.sig_not_dec`, `FunctionalExtensionality.functional_extensionality_dep`** (34 theorems):
`C67_triangle`, `C67_polygon_of_triangles`, `C67_rectangle`, `C67_axis_rectangle`, `C73_slope_of_drainage_path`, `C73_slope_zero`, `C74_sink_slope_elsewhere_refuted`, `C75_package_lengths_and_gradients`, `C76_outlet_length_refuted`, `C76_outlet_length`, `C76_outlet_length_closed_cell`, `C77_reach_lengths_and_slopes`, `C78_wrong_slope_refuted`, `C78_measured_to_last_reach_refuted`, `C78_slope_to_the_next_reach`, `C79_slopes_within_limits`, `C79_elevations`, `C79_default_slope`, `C81_self_draining_refuted`, `C81_outlet_two_thirds_refuted`, `C81_sink_fails_refuted`, `C81_routed_length`, `C81_one_inflow`, `C81_no_inflow`, `C81_positive`, `C81_succeeds`, `C100_reach_table_overwritten_refuted`, `C100_segment_table_overwritten_refuted`, `C100_tables_not_passed_stay`, `C100_second_call_changes_nothing`, `write_reaches_spec`, `C118_package_table`, `C118_detupled_table`, `C118_empty_table_not_expanded`

**`ClassicalDedekindReals.sig_forall_dec`, `FunctionalExtensionality.functional_extensionality_dep`** (10 theorems):
`C67_areas_of_cells`, `C67_start_vertex`, `C67_orientation`, `C67_affine`, `C67_position`, `C67_quadratic_scaling`, `C67_repeated_vertex`, `C67_closed_polygon`, `C67_cut`, `similar_slopes`

## 3. What is modelled and what is not

Modelled: every function of `dany/dem_conditioning.py`; of `dany/flow_directions.py` all methods (constructor
checks, areas, padding of neighbour and vertex tables, slopes, flow cells with flat resolution, reversal, nidp,
accumulation, watersheds, subbasins, `hru_len`, `slope`, `aspect`, `vectors`); of `dany/stream_util.py`
all methods of `StreamBase`, `Sfr6`, `Sfr2005`, `PrmsStreams` and `Topology` except those below.

Not modelled, hence trusted or out of scope:

* flopy's grids: vertex lists, cell centres, neighbour tables, `intersect`, `get_node`, `get_lrc`, top elevations are inputs
  of the model; theorems state what they need of them (e.g. symmetric tables, neighbours within range).
  The translation of user points to cell numbers (`intersect`, `get_node`) is therefore an input too.
* reshaping to the grid shape outside `MShape.v` (row-major, values unchanged); on unstructured grids `mf2005` reshaping is not covered.
* `numpy.recarray` layout beyond names and order of columns (`MPkg.v`), default columns of `ModflowSfr2.get_empty_*`;
  flopy's float32 columns (rchlen, strtop, slope, strhc1, strthick of reach_data): the model keeps the number assigned, the
  rounding to binary32 on assignment is not modelled.
* the bytes of pickle files (C101-C103 work on opcodes); fields of `PygsflowCascades/PygsflowStreams` beyond those named in C82 and `MSave.v`.
* pickle itself (`MSave.v`) is modelled as an opcode stream and stack machine for attribute dictionaries of integers and arrays;
  byte encodings, framing and class lookup at load time are not.
* aliasing is modelled in `MWorld.v` only (C94-C98); the single-object models (`MObj`, `MSobj`) assume that callers do not write
  into arrays the object holds (C95 states which those are), except `flow_direction_array` (`MObj.EditDirection`).
  In `MWorld.v` arrays are flat and have one of four kinds; passing an array of another kind raises at once.
* infinite slopes from coincident cell centres.
* NumPy's `np.sum` in the cascades adds in the order of NumPy's pairwise summation (`MStream.np_sum`: eight running sums,
  halving above 128 terms, as in `loops_utils.h.src` of NumPy 1.x/2.x for contiguous float64); NumPy itself is trusted to do so.
* Python sets in `_calculate_flowcell`: each is a singleton (invariant proved in `LDir.v`), so iteration order does not matter;
  warnings, printing and run time.

## 4. Plan and status per property

"proved" = the property as listed in properties.jsonl; "FALSE" = the code does not have the property: the `_refuted`
theorem proves a counterexample (in general form where possible), the status in MANIFEST.json is "partial" and the
note names the part that is true and proved.

* **C01** Filling never lowers terrain. *Plan:* invariant of the flood/drain loop: newdem >= dem; induction over pops. *Status:* proved.
* **C02** Filling keeps the rim. *Plan:* invariant: seeds and closed cells keep their level; unreached cells never written. *Status:* proved.
* **C03** Priority fill removes every sink. *Plan:* frontier invariant: every closed cell has a chain to the rim; case split on the pit queue. *Status:* proved — C03_binary64: for IEEE doubles.
* **C04** Complete fill is exactly the spill elevation. *Plan:* level of the popped cell = minimax over paths, by the cut argument on the frontier. *Status:* proved — C04_binary64: for IEEE doubles.
* **C05** Priority fill over-fills by at most N*eps. *Plan:* counting the pit steps along the chain; add_times. *Status:* proved.
* **C06** Filling a drained DEM changes nothing. *Plan:* on a drained DEM pit branch is never taken; then apply C03 to the first result. *Status:* proved — complete twice: equal up to == (the spill elevation is unique up to ==).
* **C07** Priority fill always finishes. *Plan:* unclosed + waiting cells fall by one per iteration; a cell taken is never waiting again. *Status:* proved — C07_each_cell_once: one iteration per cell that can be reached from the seeds, each taken once.
* **C08** Stream-mask fill drains the landscape to the streams. *Plan:* C03's invariant with the mask cells as sources. *Status:* proved.
* **C09** Stream-mask fill leaves no pits along the stream line. *Plan:* evaluate a small grid in the kernel; invariant: every stream cell already visited has a stream neighbour at most eps higher. *Status:* partial — FALSE of the code with eps > 0 (method priority): a stream cell can end up lower than all of its stream neighbours, but never by more than eps (C09_at_most_eps_below). True of the method complete; both on symmetric neighbour tables, and for IEEE doubles.
* **C10** Drain fill always finishes. *Plan:* sum of integer ranks decreases with every pass that changes something. *Status:* proved — C10_binary64: for IEEE doubles.
* **C11** Drain fill removes every sink. *Plan:* fixpoint equations of the last pass plus reachability induction. *Status:* proved.
* **C12** Drain and complete fill agree when eps is zero. *Plan:* both are the minimax elevation; uniqueness. *Status:* proved — symmetric neighbour table, DEM below the 1e10 flood level.
* **C13** Edge cells are exactly the cells with an unshared side. *Plan:* iff-characterisation of the dict of sides. *Status:* proved.
* **C14** NaN filling terminates exactly when .... *Plan:* potential argument both ways: passes decide it, otherwise no fuel suffices. *Status:* proved.
* **C15** NaN filling is complete and conservative. *Plan:* loop invariant; mean/median/min/max lie in the hull. *Status:* proved.
* **C16** fill_sinks method dispatch. *Plan:* case analysis, ASCII lower(). *Status:* proved — strings of 8-bit characters; spelled: letter by letter the same up to case.
* **C17** The priority queue is a priority queue. *Plan:* heap invariant of siftdown/siftup, permutation; then any history of operations. *Status:* proved.
* **C18** Flow accumulation always finishes. *Plan:* inner walk bounded by N: nidp of visited cells becomes 0/-1. *Status:* proved — inner loop bounded by N+1 iterations; any area arithmetic.
* **C19** Accumulated cells = number of upstream cells. *Plan:* invariant over the set of finished cells; counting upstream sets. *Status:* proved.
* **C20** Accumulated area = total upstream area. *Plan:* same invariant over an abstract commutative monoid. *Status:* proved — C20_accumulated_area: exact area arithmetic; C20_any_addition: own area plus the values of the inflows, for any addition; C20_binary64: IEEE doubles, exact up to one rounding (2^-53) per upstream cell.
* **C21** Water is conserved. *Plan:* partition of the cells by their terminal cell. *Status:* proved — C21_binary64: IEEE doubles, up to one rounding per cell.
* **C22** Unresolved sinks do not leak. *Plan:* general theorem on negative entries; the leak to N-2 as corollary. *Status:* partial — FALSE of the code: a cell marked -2 feeds cell N-2 (NumPy negative index); proved in general by C22_sink_feeds_cell_N_minus_2.
* **C23** nidp counts inflows. *Plan:* counting argument. *Status:* proved.
* **C24** Watershed = exactly the upstream cells. *Plan:* worklist invariant: marked = already reached backwards. *Status:* proved.
* **C25** Watershed delineation always finishes. *Plan:* each cell is pushed once. *Status:* proved.
* **C26** Watersheds follow the current flow directions. *Plan:* state machine over histories; invariant `reversal = that of the first use`. *Status:* partial — FALSE of the code: the reversed flow directions are computed once and never again (C26_stale_reversal, for every history); proved for histories without a watershed call before the latest flow_directions call, and for all calls but watersheds and subbasins in every history.
* **C27** Subbasins go to the nearest pour point downstream. *Plan:* order by Topology.sort (C32) plus watershed with earlier marks. *Status:* proved — pour points other than cell 0 (see C28), no two on a common flow cycle (the third theorem shows the claim fails there).
* **C28** Pour points may be anywhere. *Plan:* key 0 of the topology is never read (remove it); a connection to 0 puts the segment behind the marker -1. *Status:* partial — FALSE of the code for cell 0: the call raises ValueError exactly if cell 0 is the next pour cell below another one, otherwise the pour point at cell 0 is ignored (C28_cell_0_exactly); C27 covers all other cells.
* **C29** Streams shrink as the threshold grows. *Plan:* pointwise. *Status:* proved.
* **C30** Delineated streams run on to the outlet. *Plan:* C19/C20 monotone along flow. *Status:* proved — C30_binary64: IEEE doubles with any rounding and overflow.
* **C31** Topological sort loses nothing. *Plan:* DFS invariant: permutation. *Status:* proved.
* **C32** Topological sort is topological. *Plan:* DFS invariant: closed under predecessors. *Status:* proved.
* **C33** Topological sort handles any length. *Plan:* chain of length > limit for each limit; exact frame count: the visited set is the set reached from smaller segments, and a call needs the length of the unvisited chain. *Status:* partial — FALSE of the code for every recursion limit; C33_frames_needed gives the exact condition (one frame per segment on the not yet visited path below each segment), C33_path_length_suffices the simple one.
* **C34** MF6 reaches number the stream cells one to one. *Plan:* bijection between positions in the topological order and cells. *Status:* proved — given enough recursion depth: two frames more than the longest run of stream cells has links (C34_short_rivers_succeed); a longer river that starts at the lowest stream cell raises RecursionError (C34_long_river_fails).
* **C35** MF6 graph follows the flow directions. *Plan:* dictionary composition. *Status:* proved — valid flow directions; the second theorem shows a -2 sink is linked to cell N-2 instead.
* **C36** MF6 reach numbers increase downstream. *Plan:* C32 through the numbering. *Status:* proved.
* **C37** Reach numbering is repeatable. *Plan:* the function only looks at non-zero cells. *Status:* proved.
* **C38** Connection data is symmetric and complete. *Plan:* fold invariant over sorted items. *Status:* proved.
* **C39** Connection data keeps the direction sign. *Plan:* C36 (reach 1 is never downstream). *Status:* proved — acyclic networks; the second theorem shows where the sign is lost on a flow cycle.
* **C40** Package data connection counts match. *Plan:* C38 with the count. *Status:* proved.
* **C41** packagedata accepts a stream array. *Plan:* counterexample schema. *Status:* partial — FALSE of the code: the array given is searched for the renumbered reaches.
* **C42** Segments partition the stream cells. *Plan:* walk invariant: segments are disjoint flow paths from starts. *Status:* proved.
* **C43** Segment graph follows the flow directions. *Plan:* fold over the walks. *Status:* proved.
* **C44** Segment grouping always finishes. *Plan:* starts are never crossed: fuel N+1. *Status:* proved — given enough recursion depth for the topological sort: more frames than segments on any run of stream cells (C33).
* **C45** No stream cell is lost by grouping. *Plan:* ring cells are no starts: general refutation. *Status:* partial — FALSE of the code: the stream cells of a closed ring (or an isolated self-draining stream cell) get no record and keep a wrong label; proved in general.
* **C46** Segment numbers increase downstream. *Plan:* C32 on the segment graph. *Status:* proved.
* **C47** Segment data is ordered. *Plan:* sorted keys. *Status:* proved.
* **C48** Reach data covers every reach once. *Plan:* fold invariant. *Status:* proved.
* **C49** reach_data succeeds on every delineated network. *Plan:* exact condition for the KeyError. *Status:* partial — FALSE of the code: reach_data raises KeyError exactly when the last cell of a segment of two or more reaches lies in a column whose number is that of a segment without outflow (C49_when_reach_data_fails, both directions).
* **C50** irunbnd covers exactly the draining cells. *Plan:* worklist over the reversed graph. *Status:* proved — C50_irunbnd_exact gives the label of every cell.
* **C51** irunbnd sends runoff to the first stream cell. *Plan:* exact label (C50) differs from the first one. *Status:* partial — FALSE of the code wherever the stream label changes along the flow path (general theorem); C51_first_cell_partial gives the paths on which it holds.
* **C52** Cascades are flow links. *Plan:* fold over cells. *Status:* proved — as a set of records; for the multiplicities see C53.
* **C53** Cascade fractions of a cell add up to one. *Plan:* multiplicity = number of inflows. *Status:* partial — FALSE of the code at every confluence: k inflows give k records of fraction 1 for each inflow.
* **C54** Many-to-many fractions add up to one. *Plan:* sums of normalised fractions over Q; binary64: every order of additions stays within (1+u)^n of the exact sum (LSum, LSumF), at most 103 shares above 0.01. *Status:* proved — exactly one in exact (rational) arithmetic. In binary64, with NumPy's order of np.sum: an exact sum within 1e-13 of one and fractions from 0.01 (up to 1e-12 of it) to 1, for finite slopes up to 2^1000 and up to 1000 neighbours; with at most seven neighbours for any slopes that are not NaN, infinite ones included, and no fraction below 0.01.
* **C55** Many-to-many cascades stay inside the basin. *Plan:* evaluate a small grid. *Status:* partial — FALSE of the code: outside cells are marked -9 but the filter tests for 0, so every landscape cell whose steepest way down leads out of the boundary has a cascade out of it (C55_outlets_cascade_out_refuted, general); true of the cells the records start from and of the records of stream cells (C55_starts_inside, any arithmetic).
* **C56** Control-point thresholds follow the main stem. *Plan:* walk = climbs relation of Spec. *Status:* proved.
* **C57** Control-point tracing always finishes. *Plan:* pigeonhole on the climb: it ends or comes back to the control point; on a cycle no fuel suffices. *Status:* partial — FALSE of the code on flow cycles; C57_returns_exactly: the call returns exactly if no climb from a control point comes back to it, and then with the thresholds of C56; in particular for all control points that are not on a cycle (C57_off_cycles). Any accumulation type with a weak order, so also IEEE doubles.
* **C58** Stream products follow the current stream array. *Plan:* state machine over histories. *Status:* partial — FALSE of the code: graphs computed once are reused after a new delineation (in general); proved when get_stream_connectivity is called after the last delineation, or on first use.
* **C59** Flow goes to a steepest neighbour. *Plan:* every write to fdir goes through fcells (steepest cells); invariant over the whole of _calculate_flowcell. *Status:* proved — any arithmetic with a strict weak order on the slopes (exact rationals, binary64 without NaN slopes); DEMs with isolated valid cells: C72.
* **C60** A unique steepest neighbour wins. *Plan:* singleton fcells are written first and never overwritten. *Status:* proved — under the conditions of C59 (every valid cell has a valid neighbour with slope below 1e10 or a full row of neighbours); other DEMs: C72.
* **C61** Flow directions are always computed. *Plan:* fuel bounds for the nested worklists; no -1 left. *Status:* proved — no cell is left at -1 and every value is -2 or a cell number.
* **C62** NaN cells keep to themselves. *Plan:* NaN rows excluded from every fcells. *Status:* proved — under the conditions of C59 (every valid cell has a valid neighbour with slope below 1e10 or a full row of neighbours); other DEMs: C72.
* **C63** The outlet drains out. *Plan:* counterexample schemas; invariant for uncontested cells. *Status:* partial — FALSE of the code when the outlet or a terminal cell is one of several steepest neighbours of a cell; proved for all others.
* **C64** Downhill terrain drains completely. *Plan:* well-founded descent on elevation ranks. *Status:* proved — exact arithmetic; C64_binary64: the same for IEEE doubles.
* **C65** Filled terrain gives cycle-free flow directions. *Plan:* C03 gives the descending neighbour, then C64. *Status:* partial — FALSE of the code: pits on the rim survive the fill and form cycles; proved for terrain whose rim cells have a lower neighbour; C65_binary64_partial: the same for IEEE doubles.
* **C66** flow_directions is repeatable. *Plan:* state machine; flow_directions depends on the arguments only. *Status:* proved — for every history of calls on the object.
* **C67** Shoelace area is a polygon area. *Plan:* algebra over R; fan decomposition, Heron's formula. *Status:* proved — exact (real) arithmetic; triangles by Heron's formula from the side lengths.
* **C68** Aspect and flow vectors point downstream. *Plan:* trigonometry of atan2. *Status:* proved — exact (real) arithmetic; cells that drain to themselves point east, cells that drain nowhere: C74.
* **C69** Stream lines trace the segments. *Plan:* loop invariant of the line tracer. *Status:* proved — one-cell segments with flow cycles: exactly the segments below a headwater segment have a line.
* **C70** Many-to-one cascades stay inside the basin. *Plan:* exact set of records. *Status:* partial — FALSE of the code for every cell whose water leaves the basin. C70_records_exactly: the records are the links with both ends inside and one self-link for every outside cell that receives water from inside; so the claim holds exactly for basins that no cell flows out of (C70_closed_basins).
* **C71** Many-to-many cascades keep every downhill landscape cell connected. *Plan:* general refutation. *Status:* partial — FALSE of the code: links to cells that flow to cell 0 are dropped; exactly the cells with a strictly lower neighbour that does not flow to cell 0 have a cascade (C99_which_cells_cascade).
* **C72** Valid cells surrounded by NaN are handled. *Plan:* no steepest slope leads to an isolated cell, so it keeps -1 until its own iteration; evaluate that one. *Status:* partial — FALSE of the code: with two or more missing neighbours the call does not return (IndexError), with one the cell flows to the cell number N; cells with as many neighbours as any other are marked as sinks. C72_isolated_cells: exactly this, for every DEM on a symmetric neighbour table, any arithmetic with the order laws.
* **C73** Slope is the drop along the drainage path. *Plan:* case analysis over R. *Status:* proved — exact (real) arithmetic.
* **C74** Cells that drain nowhere have no slope and no direction. *Plan:* general refutation from index -2. *Status:* partial — FALSE of the code: the marker -2 is used as an index, so the cell gets the direction and slope towards the last but one cell of the grid.
* **C75** Package data lengths, gradients and tops. *Plan:* record by record over C40 and C73. *Status:* proved — exact (real) arithmetic; outlet lengths: C76.
* **C76** Outlet reaches of MODFLOW-6 have the length of the cell. *Plan:* sum over range(1, len) misses the closing side. *Status:* partial — FALSE of the code: range(1, len(verts)) leaves out the closing side, so a w x h cell gets 1.5 (2w + h)/3; right for squares and for closed vertex lists.
* **C77** Reach data lengths, slopes and tops. *Plan:* record by record over C48, C43. *Status:* proved — exact (real) arithmetic; for the records reach_data returns (it may raise KeyError: C49).
* **C78** Builder slopes follow the stream. *Plan:* the column read is constant; general refutation and conditional truth. *Status:* partial — FALSE of the code: the outreach column is never stored, so every slope is measured to the last reach of the whole network; proved for reach data with an outreach column supplied by the caller.
* **C79** Builder slopes stay within the limits. *Plan:* clamp. *Status:* proved — exact (real) arithmetic; the limits also in binary64.
* **C80** Builder defaults can be overridden. *Plan:* unpacking a string of length <> 2 raises. *Status:* partial — FALSE of the code: `for k, v in kwargs` unpacks the key strings, so every keyword but group_segments raises.
* **C81** Routed length through a cell. *Plan:* explicit formula, positivity, counterexamples. *Status:* partial — FALSE of the code for outlets (length 0, or two thirds of the way in) and with cells marked -2 (IndexError); the formula, positivity of cells with an exit and success on touching cells are proved.
* **C82** The PRMS builder object is consistent. *Plan:* state machine + fold lengths. *Status:* proved — nreaches for a stored array with closed rings: see C45; hru_slope, hru_aspect, hru_area: C73, C68, C67.
* **C83** Two equally low outlets are refused. *Plan:* minimum of the array. *Status:* proved — an elevation below 1e10 exists (the code appends 1e10 to the array).
* **C84** Ties are broken by position. *Plan:* loop invariant with the rule as the value of every settled cell; the linkage test answers exactly reachability. *Status:* proved — neighbour lists without duplicates; terrain_ok excludes valid cells with only NaN neighbours (C72).
* **C85** Only trapped cells are marked as sinks. *Plan:* loop invariant: dropped neighbours flow back, the search marks a closed set. *Status:* proved — neighbour lists without duplicates; the converse is not claimed: outlets may be marked too (C63).
* **C86** Control points add exactly their main stems. *Plan:* C56 composed with C29. *Status:* proved — any number type for which taking 5 off never raises a value (cells, areas, truncated or not); C86_binary64: IEEE doubles with NaN. With a neighbour table of cells sharing a side the trace misses inflows across a corner (C86_rook_table_misses_corner_inflow).
* **C87** Control-point streams run on to the outlet. *Plan:* witness; exact condition by following the stem down. *Status:* partial — FALSE of the code: nothing is added below a control point; true exactly if the cell below every control point is a stream cell.
* **C88** The default threshold selects the control-point streams. *Plan:* C86 with a threshold below all values. *Status:* partial — FALSE of the code: the default 0 makes every cell with an accumulation value a stream cell; true of thresholds above every accumulation value.
* **C89** Epsilon filling works for every array type. *Plan:* C02, C03, C12 with the stored sum (truncation, binary32 rounding); general refutation. *Status:* partial — FALSE of the code: the sum elevation + eps is stored back in the array type of the DEM. In integer DEMs (elevations >= 0) an eps below 1 is truncated away, in float32 DEMs at or above 64 the default 2e-06 is absorbed: the result is that of the complete fill and no raised cell drains. True of eps >= 1 on integer DEMs; float64: C03, C04.
* **C90** Stream masks of every type give the same network. *Plan:* connectivity with a cast at every store; general refutation for bool. *Status:* partial — FALSE of the code: reach numbers are written into a copy with the type of the mask, so with a boolean mask all reach numbers are 1 and the MODFLOW 6 graph has one reach; the MODFLOW-2005 records are unaffected but the stored stream array has one label. True of types that hold the reach numbers.
* **C91** A threshold that no cell reaches gives empty tables. *Plan:* evaluate the model on a zero array, for all sizes. *Status:* partial — FALSE of the code: reach_data and packagedata(detuple=True) raise IndexError on an empty network; all other tables are empty.
* **C92** From terrain to stream package. *Plan:* composition of C61, C64, C19, C30, C34-C40, C46-C49 at object level. *Status:* proved — IEEE doubles; the terrain conditions are those of C64 and C65 (no tie between an outlet and another steepest neighbour, no pits on the rim); accumulation in cells; the recursion limit exceeds the number of cells; MODFLOW-2005 tables with group_segments=False (reach_data needs a stream cell: C91); grouped: C42, C43, C93.
* **C93** Segments that end at an outlet have outseg 0. *Plan:* C42, C43: the outlet has two inflows, one of them itself. *Status:* partial — FALSE of the code with group_segments=True (the default): the outlet becomes a segment of its own whose outseg is its own number; for threshold streams, which run on to the outlets (C30), no segment has outseg 0. True with group_segments=False.
* **C94** Calls do not write into the caller's arrays. *Plan:* a heap model; Hoare-style invariant: every call only adds cells or writes into cells it added. *Status:* proved — model of a session with a heap of arrays: MWorld.v; scratch arrays are new cells.
* **C95** Objects do not disturb each other. *Plan:* simulation of the heap model by the object models MObj, MSobj; frame argument for the other objects. *Status:* proved — the record tops, which come from the modelgrid, are left out (C97); many-to-many cascades also read the elevations, and the threshold without effect (C98), of the FlowDirections object at the time of the call.
* **C96** Results belong to the caller. *Plan:* the heap model: who holds a reference; general refutations for the shared ones. *Status:* partial — FALSE of the code: flow_directions, flow_accumulation, dem, area, delineate_streams and the MODFLOW 6 connectivity hand out the stored object, set_stream_array keeps the caller's array, and stream objects share the arrays of the FlowDirections object. True of fill_sinks, fill_nan_values, get_nidp, get_watershed_boundary, get_subbasins, stream_array, irunbnd and modelgrid.top.
* **C97** Records show the elevations of the object's own DEM. *Plan:* invariant: the grid top is the last DEM; witness session. *Status:* partial — FALSE of the code: every stream constructor overwrites modelgrid.top, so the records of all stream objects on the modelgrid show the DEM of the one built last; true of that one.
* **C98** Many-to-many cascades do not depend on the burn threshold. *Plan:* burned slopes are zero, zero shares are dropped; the sums change only by rounding (order of np.sum), so shares away from 0.01 keep their side; a session for the refutation. *Status:* partial — FALSE of the code in float64: a burnt slope is an additional zero term of np.sum, which adds eight or more terms in another order, so that a share next to 0.01 can fall on the other side (witness on a 3x3 grid, 20 or 19 cascades). True in exact arithmetic; true in float64 with at most seven neighbours; true in float64 with up to 1000 neighbours if no slope is within a relative 1e-12 of one percent of the sum. Provided nobody writes into the elevations.
* **C99** Many-to-many cascades cross flats and burned steps. *Plan:* the largest of at most 99 shares exceeds 1/100 unless all slopes are zero. *Status:* partial — FALSE of the code: a slope of zero has share zero (or 0/0), so cells whose ways on are all level or burned have no cascade. Exactly the cells with a strictly lower neighbour that does not flow to cell 0 (or lies outside the boundary) have one (at most 99 neighbours, exact arithmetic); C99_binary64: the half with a lower neighbour in float64, NumPy order of np.sum, slopes up to 2^1000.
* **C100** The builder leaves the caller's tables alone. *Plan:* a heap of tables; the loop is row by row the builder of C79. *Status:* partial — FALSE of the code: with apply_defaults=True (the default) the columns strtop, slope, strhc1, strthick of a passed reach table and the default columns of a passed segment table are overwritten in place, and the tables become those of the returned object. With apply_defaults=False, and for tables not passed in, nothing changes; a second call changes nothing more.
* **C101** A saved pyGSFLOW object reads back as it was saved. *Plan:* the unpickler run on the pickled stream rebuilds the object; files only change by writes. *Status:* proved — pickle is modelled as a stream of opcodes with a memo and a stack machine (MSave.v).
* **C102** An interrupted write keeps the previous file. *Plan:* counterexample: cut before the first opcode. *Status:* partial — FALSE of the code: open(f, 'wb') empties the file before the first byte is written, so an interrupted write leaves nothing to read (C103); true of other files.
* **C103** Torn files are refused. *Plan:* a prefix of the stream has no STOP. *Status:* proved — the crash points are the opcodes of the stream; a cut inside an opcode counts as a cut before it.
* **C104** Rows and columns agree between arrays and tables. *Plan:* row-major numbering on top of C34, C40, C42, C48, C50. *Status:* proved — NumPy's C order and flopy's cell numbering are modelled in MShape.v; reach_data with grouped segments, cells on closed rings have no record (C45).
* **C105** Arrays of the wrong shape are refused. *Plan:* counterexample on every non-square grid. *Status:* partial — FALSE of the code: only the number of entries is compared, so a transposed array is accepted and read in the order of its entries; arrays of another size are refused by set_stream_array.
* **C106** Topological sort does not depend on the order of insertion. *Plan:* the recursion only looks entries up; the start order is the sorted list of keys. *Status:* proved.
* **C107** The order of points does not matter. *Plan:* via C106 for subbasins; a walk writes a value fixed by the cell, so walks commute. *Status:* proved — any accumulation arithmetic, any recursion limit; the call with one list returns an array exactly if the call with the other does.
* **C108** Water balance at every cell. *Plan:* the upstream list splits into the cell and the lists of its inflows. *Status:* proved — areas with exact addition; cells on a flow cycle are excluded (C22).
* **C109** Accumulation, watersheds and subbasins agree. *Plan:* from C19, C20, C24, C27: both sides count the cells upstream. *Status:* proved — subbasins under the conditions of C27 (cell 0 is not a pour point, pour points not on a common cycle).
* **C110** Filling does not depend on the order of neighbours. *Plan:* simulation of two floods: the pit is processed in levels of equal elevation, visits from one level commute, and the two heaps always hold the same entries. *Status:* proved — priority and complete without a stream mask for every elevation arithmetic including IEEE binary64; with a mask and for the drain method when equal elevations are identical values (integers; floats without -0.0).
* **C111** Complete fill depends only on the terrain. *Plan:* from C04: the spill elevation is monotone and invariant. *Status:* proved — no stream mask.
* **C112** Priority fill depends only on the terrain. *Plan:* refuted on a 3 x 4 grid; the bound from C04 and C05. *Status:* partial — FALSE of the code: rim cells of equal elevation are taken in the order of their numbers, so raising part of the rim lowers a filled cell, and turning the map changes the fill; proved: both hold up to N*eps.
* **C113** Edits of flow directions act downstream only. *Plan:* paths of cells not upstream of the edit are unchanged; sums over disjoint sets of cells; for any addition: two runs of the walk agree on the catchment, by a simulation. *Status:* proved — untouched cells keep their values for any addition whatever, rounding included (bitwise), also when areas outside the catchment change; what a re-route moves is exact for exact arithmetic; cells off flow cycles.
* **C114** Flow directions depend on comparisons of slopes only. *Plan:* relational argument: related rows of slopes have minima at the same places, the rest of the computation sees only those places. *Status:* proved — datum and units in exact (rational) arithmetic, below the sentinel 1e10; the general theorem holds for any arithmetic.
* **C115** Flow directions do not depend on the numbering of cells. *Plan:* symmetric terrain as counterexample; without ties from C84. *Status:* partial — FALSE of the code: of two equally steep neighbours that touch the first in the neighbour list is taken; proved: holds wherever every cell has one steepest neighbour.
* **C116** Drain fill returns the least draining surface. *Plan:* induction along a draining chain of the competing surface, using that the returned surface is settled (no cell above its terrain is higher than a neighbour + eps). *Status:* proved — unit change at cells below the flood level 1e10 in both models.
* **C117** Order of the three fills. *Plan:* complete = spill elevation (C04), path of C11; leastness (C116) applied to the priority surface. *Status:* partial — FALSE of the code: 'drain' and 'priority' are not ordered (priority keeps a cell that is higher than its neighbour by less than epsilon; drain raises it); proved: complete <= drain <= complete + N*eps always, drain <= priority when no two elevations are closer than epsilon.
* **C118** The MODFLOW 6 package table is complete and can be expanded. *Plan:* column lookup in a table of records; C40 for the cells and connections. *Status:* proved — exact arithmetic for rlen and rgrd; get_lrc as flopy documents it (row-major); at an outlet, where the length is not a distance between centres, see C75-C78.
* **C119** Streams of a basin form one network ending at the pour point. *Plan:* C24 for the basin, C30 (growth downstream) along the path to the pour point, C34-C36 and C42-C46 for the numbering; induction along the flow path. *Status:* proved — any arithmetic in which a sum is at least as large as its parts, binary64 included; acyclic directions; MODFLOW-2005 in grouped mode.
* **C120** Control points: order, repeats, additions, type of the threshold. *Plan:* C57's exact result for order and repeats; C86's characterisation of the stream cells for the comparisons. *Status:* proved — order and repeats: also on grids with flow cycles; the rest: acyclic directions, any weakly ordered accumulation values with NaN, binary64 included for additions; truncation stated over exact rationals.
* **C121** Units and datum of the flood-filled terrain. *Plan:* parametricity of the flood in the elevations: the heap, the loop and the final array are related step by step. *Status:* proved — exact rationals for the unit change; the correspondence theorem holds for any element types, NaN handling and fuel; directions need elevations and slopes below the 1e10 placeholders in both models.
* **C122** The MODFLOW 6 and the MODFLOW-2005 network of the same streams are the same river. *Plan:* both networks are characterised by the same relation (stream cell, downstream cell a stream cell) through C34/C35 and C42-C46. *Status:* proved — grouped: cells of closed rings (which the MODFLOW-2005 table leaves out, C45) excepted; ungrouped: a reach that runs into itself excepted.
* **C123** Accumulation as a function of the cell areas. *Plan:* parametricity of the accumulation loop in the areas; counts and areas are updated by the same steps. *Status:* proved — superposition and one-size: any commutative associative addition; monotonicity also for binary64; unit change for conversions that commute with the addition (any factor in exact arithmetic, powers of two barring overflow in binary64).
* **C124** Results do not depend on the numbering of the cells. *Plan:* from the numbering-free characterisations C19, C20, C24, C27, C34/C35, C42/C43, C70. *Status:* proved — accumulations off flow cycles, exact addition (the order of the summands follows the numbering); subbasins under the conditions of C27, neither pour point numbered 0 (C28); segments up to their numbers; irunbnd does depend on the numbering (C51_numbering_decides_refuted).
* **C125** Accumulation on grids with flow cycles. *Plan:* the loop invariant of C19/C20 with the set of passed cells; the cells that are never passed are the terminal and cycle cells. *Status:* proved — areas: exact addition; C125_any_addition: any addition, binary64 included.
* **C126** Errors of the terrain are not amplified by filling. *Plan:* spill elevation (C04) of the same path in both terrains; drain: least surface (C116) applied to the other result raised by d. *Status:* proved — no stream mask; exact arithmetic, C126_binary64: 'complete' with doubles, the difference measured in real numbers.
* **C127** Edits of the terrain act only on cells behind them. *Plan:* spill paths; along a spill path of the edited terrain the old filled surface cannot rise at raised cells. *Status:* proved — no stream mask; any number type that satisfies the elevation laws.
* **C128** NaN filling as a function of the valid elevations. *Plan:* relational induction over the loop; each aggregation respects y >= a*x + k (the median through insertion sort). *Status:* proved — exact (rational) arithmetic.
* **C129** Flow directions withstand small errors of the terrain. *Plan:* the margin bounds both slopes; C60 in both terrains. *Status:* proved — exact arithmetic; C129_binary64: IEEE doubles, with a relative 2e-14 for the rounding; both terrains under the conditions of C61.
* **C130** Cascades of a delineated watershed. *Plan:* C24 and C70_records_exactly; the pour point is the only cell that leaves its watershed. *Status:* proved — as a set of records (repeated records: C53).
* **C131** Thresholds and basins of delineate_streams. *Plan:* cell by cell. *Status:* proved.
* **C132** Priority fill accepts NaN cells. *Plan:* the forest of the flood needs no law of arithmetic (LAny): each reached cell was raised from, or lies above, the cell it was reached from; NaN cells compare false and are never written. *Status:* proved — general theorem for any arithmetic with the order laws on numbers and the NaN laws; instance: IEEE binary64 with its NaN.
* **C133** NaN cells do not disturb the filling of the others. *Plan:* 3 x 3 example with doubles. *Status:* partial — FALSE of the code: comparisons with NaN break the order of heapq, so cells that have a strictly lower neighbour on the rim are raised (3 x 3 witness with one NaN cell, computed with doubles); what remains true is C132.
* **C134** Drain fill keeps NaN cells. *Plan:* step by step simulation of the drain loop on the DEM and on the DEM with 1e+10 for NaN. *Status:* partial — FALSE of the code: every NaN cell inside the rim comes back as 1e+10 (wf > NaN is never true, so the flood level stays); exactly: the call acts as if NaN were 1e+10, except that NaN cells on the rim stay NaN; it returns and does not lower numbers.
* **C135** Many-to-many cascades never run in circles. *Plan:* height: stream cells rank by the number of steps to the terminal cell, landscape cells above them by the number of strictly lower cells; every record lowers the height. *Status:* proved — for any arithmetic with the listed laws; instances: exact rationals and IEEE binary64; without the proviso it is false (_refuted theorem: a stream array with a gap and a burn threshold gives a circle).
* **C136** Water routed along many-to-many cascades is conserved. *Plan:* double counting of the records by source and by target, fractions add up to one (C54), self records excluded; existence and uniqueness by iteration along the height of C135; in doubles the same double counting with weights (1 +- delta)^height. *Status:* proved — exact rationals; in doubles up to a factor (1 +- 1e-13)^(2N+1) with rounded fractions; many-to-one cascades multiply water at confluences (_refuted theorem, the duplicates of C53).
* **C137** From elevations to cascades: all the rain reaches the outlets. *Plan:* composition of C61, C64, C18, C34, C54, C135 and C136 over the calls of the API; every valid cell that is no outlet passes its water on, by C99 and the slope table of the terrain. *Status:* proved — exact rationals; in binary64: the calls succeed, no circle, fractions add up to one within 1e-13, from every cell the records lead to outlets, all rain ends there up to (1 +- 1e-13)^(2N+1); the provisos exclude the refuted cases C63 (contested outlet) and C71 (neighbours that flow to cell 0 are dropped).
* **C138** Distances, reach lengths and gradients are accurate in double precision. *Plan:* relative error of every rounding (Flocq), no overflow or underflow by the size bounds, errors composed. *Status:* proved — IEEE binary64 (Flocq); x ** 2 is modelled as one rounded multiplication, sqrt as correctly rounded.
* **C139** In double precision the water flows to the neighbour that is really the steepest. *Plan:* C59/C60 at binary64 + the error of the computed slope (C138): the order of two slopes can only be wrong if they are within 1e-14. *Status:* proved — IEEE binary64; burnt-in drops (0 < rise < threshold counts as level) only affect uphill neighbours.
* **C140** The sizes of the stream tables. *Plan:* double counting (inflows by target or by source) on top of C38, C40 and C42. *Status:* proved — a cell that flows to itself counts as its own inflow, as in the code: an outlet with a river above it is a confluence of two arms.
* **C141** From a map to the outlets in double precision. *Plan:* C138/C139 discharge the hypotheses of C137 (binary64) and C92 for distances computed from coordinates. *Status:* proved — IEEE binary64; the hypotheses are about real numbers only; the provisos exclude the refuted cases C63 and C71.
* **C142** Fill first, then everything drains. *Plan:* C03 in doubles gives the interior a lower neighbour after the fill; C141 does the rest. *Status:* proved — IEEE binary64; the provisos on the filled raster exclude the refuted cases C63, C65 and C71.
* **C143** A catchment can be modelled on its own. *Plan:* the only steepest neighbour stays the only one when others are blanked (C60); accumulation by a simulation between the two runs that tracks the inflows still to come (a new outlet counts itself). *Status:* proved — any arithmetic with ordered slopes (rationals, binary64) and any addition of areas; the accumulation theorems need a pour point that is not on a flow cycle and has an inflow.
* **C144** Cell areas are accurate in double precision. *Plan:* rounding errors of products (with underflow), differences and the running sum accumulated by induction over the corners; exactness by computing with integers times a power of two; padding adds exact zeros. *Status:* proved — IEEE binary64 (Flocq), round to nearest even; no relative bound: a cell far from the origin loses digits (C144_position_matters: a unit square at (2^27, 2^27) gets area 0).
* **C145** Subbasin maps fit together. *Plan:* every label is a first pour point (C27); first pour points under nested sets determine each other; the cells above a pour point are the disjoint union of its subbasin and the cells above the pour points entering it. *Status:* proved — pour points other than cell 0 (see C28), no two on a common flow cycle, as in C27; areas with exact addition.
* **C146** Lateral inflow of reaches adds up. *Plan:* the cells above a reach are the disjoint union of its landscape and the cells above the reaches that run into it (C145); the networks are those of C34/C42. *Status:* proved — stream arrays without gaps, reaches off flow cycles; areas: exact addition.
