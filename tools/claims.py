c("C01", P, "C01_flood_never_lowers C01_drain_never_lowers")
c("C02", P, "C02_flood_keeps_rim C02_drain_keeps_rim")
c("C03", P, "C03_priority_removes_sinks C03_binary64", "C03_binary64: for IEEE doubles")
c("C04", P, "C04_complete_is_spill C04_binary64", "C04_binary64: for IEEE doubles")
c("C05", P, "C05_overfill_bounded")
c("C06", P, "C06_drained_unchanged C06_idempotent C06_complete_idempotent", "complete twice: equal up to == (the spill elevation is unique up to ==)")
c("C07", P, "C07_flood_terminates C07_each_cell_once", "C07_each_cell_once: one iteration per cell that can be reached from the seeds, each taken once")
c("C08", P, "C08_streams_drain")
c("C09", Q, "C09_stream_pits_refuted C09_complete_has_no_stream_pits C09_at_most_eps_below C09_binary64", "FALSE of the code with eps > 0 (method priority): a stream cell can end up lower than all of its stream neighbours, but never by more than eps (C09_at_most_eps_below). True of the method complete; both on symmetric neighbour tables, and for IEEE doubles")
c("C10", P, "C10_drain_terminates C10_binary64", "C10_binary64: for IEEE doubles")
c("C11", P, "C11_drain_removes_sinks")
c("C12", P, "C12_drain_is_complete", "symmetric neighbour table, DEM below the 1e10 flood level")
c("C13", P, "C13_edge_cells")
c("C14", P, "C14_nan_fill_returns C14_nan_fill_never_returns C14_nan_fill_diverges")
c("C15", P, "C15_nan_fill_result")
c("C16", P, "C16_case_insensitive C16_mask_forces_priority C16_complete_is_priority_with_eps_0 C16_unknown_runs_drain C16_any_spelling C16_every_name C16_nan_any_spelling C16_nan_other_names_refused", "strings of 8-bit characters; spelled: letter by letter the same up to case")
c("C17", P, "C17_priority_queue")
c("C18", P, "C18_accumulation_finishes", "inner loop bounded by N+1 iterations; any area arithmetic")
c("C19", P, "C19_accumulated_cells C19_object_cells")
c("C20", P, "C20_accumulated_area C20_object_areas C20_any_addition C20_binary64 C20_binary64_relative", "C20_accumulated_area: exact area arithmetic; C20_any_addition: own area plus the values of the inflows, for any addition; C20_binary64: IEEE doubles, exact up to one rounding (2^-53) per upstream cell")
c("C21", P, "C21_cells_conserved C21_area_conserved C21_binary64", "C21_binary64: IEEE doubles, up to one rounding per cell")
c("C22", Q, "C22_sinks_leak_refuted C22_negative_entries_wrap C22_sink_feeds_cell_N_minus_2", "FALSE of the code: a cell marked -2 feeds cell N-2 (NumPy negative index); proved in general by C22_sink_feeds_cell_N_minus_2")
c("C23", P, "C23_nidp_counts_inflows C23_object_nidp")
c("C24", P, "C24_watershed_is_upstream C24_object_first_watershed")
c("C25", P, "C25_watershed_finishes")
c("C27", P, "C27_subbasins_first_pour C27_every_cell_covered C27_common_cycle_refuted C27_object_first_subbasins", "pour points other than cell 0 (see C28), no two on a common flow cycle (the third theorem shows the claim fails there)")
c("C28", Q, "C28_pour_at_cell_0_dropped_refuted C28_pour_above_cell_0_fails_refuted C28_pour_above_cell_0_fails C28_pour_at_cell_0_ignored C28_cell_0_exactly", "FALSE of the code for cell 0: the call raises ValueError exactly if cell 0 is the next pour cell below another one, otherwise the pour point at cell 0 is ignored (C28_cell_0_exactly); C27 covers all other cells")
c("C31", P, "C31_sort_is_permutation")
c("C32", P, "C32_sort_is_topological")
c("C33", Q, "C33_long_rivers_fail_refuted C33_frames_needed C33_path_length_suffices C33_only_recursion_error C33_result_independent_of_limit C33_sort_succeeds_partial", "FALSE of the code for every recursion limit; C33_frames_needed gives the exact condition (one frame per segment on the not yet visited path below each segment), C33_path_length_suffices the simple one")
c("C29", P, "C29_cells C29_threshold_monotone C29_object C29_set_stream_array")
c("C30", P, "C30_streams_run_on C30_streams_run_on_cells C30_streams_run_on_any_addition C30_binary64", "C30_binary64: IEEE doubles with any rounding and overflow")
c("C34", P, "C34_reaches_number_the_cells C34_connectivity_succeeds C34_object_succeeds C34_short_rivers_succeed C34_long_river_fails C34_object_short_rivers C34_object_long_river_fails", "given enough recursion depth: two frames more than the longest run of stream cells has links (C34_short_rivers_succeed); a longer river that starts at the lowest stream cell raises RecursionError (C34_long_river_fails)")
c("C35", P, "C35_graph_follows_flow C35_sink_is_linked_refuted C35_object", "valid flow directions; the second theorem shows a -2 sink is linked to cell N-2 instead")
c("C36", P, "C36_numbers_increase C36_numbers_increase_off_cycles")
c("C37", P, "C37_numbering_depends_on_cells_only C37_renumbering_repeats")
c("C38", P, "C38_connectiondata C38_object C38_object_given")
c("C39", P, "C39_downstream_entries_negative C39_sign_lost_on_cycle", "acyclic networks; the second theorem shows where the sign is lost on a flow cycle")
c("C40", P, "C40_packagedata C40_object")
c("C41", Q, "C41_packagedata_given_fails_refuted C41_index_error_refuted C41_packagedata_given_example_partial C41_object_refuted", "FALSE of the code: the array given is searched for the renumbered reaches")
c("C42", P, "C42_segments_partition_the_streams C42_reaches_in_order C42_array_shows_segments")
c("C43", P, "C43_segment_graph C43_object")
c("C44", P, "C44_grouping_finishes C44_connectivity_succeeds C44_object_succeeds C44_short_rivers_succeed C44_ungrouped_short_rivers_succeed C44_object_short_rivers", "given enough recursion depth for the topological sort: more frames than segments on any run of stream cells (C33)")
c("C45", Q, "C45_cell_lost_refuted C45_ring_cells_mislabelled", "FALSE of the code: the stream cells of a closed ring (or an isolated self-draining stream cell) get no record and keep a wrong label; proved in general")
c("C46", P, "C46_segments_increase C46_ungrouped")
c("C47", P, "C47_segment_data C47_object C47_object_first_use")
c("C48", P, "C48_reach_data")
c("C49", Q, "C49_reach_data_fails_refuted C49_when_reach_data_fails C49_ungrouped_succeeds", "FALSE of the code: reach_data raises KeyError exactly when the last cell of a segment of two or more reaches lies in a column whose number is that of a segment without outflow (C49_when_reach_data_fails, both directions)")
c("C50", P, "C50_irunbnd_covers_draining_cells C50_irunbnd_exact C50_object C50_object_given C50_object_first_use", "C50_irunbnd_exact gives the label of every cell")
c("C51", Q, "C51_label_change_refuted C51_river_refuted C51_numbering_decides_refuted C51_first_cell_partial", "FALSE of the code wherever the stream label changes along the flow path (general theorem); C51_first_cell_partial gives the paths on which it holds")
c("C52", P, "C52_cascades_are_flow_links C52_object C52_object_first_use", "as a set of records; for the multiplicities see C53")
c("C53", Q, "C53_confluence_refuted C53_records_per_cell", "FALSE of the code at every confluence: k inflows give k records of fraction 1 for each inflow")
c("C54", P, "C54_fractions_add_up C54_cascades_succeed C54_binary64 C54_binary64_few C54_any_arithmetic_succeeds", "exactly one in exact (rational) arithmetic. In binary64, with NumPy's order of np.sum: an exact sum within 1e-13 of one and fractions from 0.01 (up to 1e-12 of it) to 1, for finite slopes up to 2^1000 and up to 1000 neighbours; with at most seven neighbours for any slopes that are not NaN, infinite ones included, and no fraction below 0.01")
c("C55", Q, "C55_cascade_leaves_basin_refuted C55_outlets_cascade_out_refuted C55_starts_inside", "FALSE of the code: outside cells are marked -9 but the filter tests for 0, so every landscape cell whose steepest way down leads out of the boundary has a cascade out of it (C55_outlets_cascade_out_refuted, general); true of the cells the records start from and of the records of stream cells (C55_starts_inside, any arithmetic)")
c("C56", P, "C56_thresholds_follow_main_stem")
c("C57", Q, "C57_climb_without_end_refuted C57_two_cycle_refuted C57_returns_exactly C57_off_cycles", "FALSE of the code on flow cycles; C57_returns_exactly: the call returns exactly if no climb from a control point comes back to it, and then with the thresholds of C56; in particular for all control points that are not on a cycle (C57_off_cycles). Any accumulation type with a weak order, so also IEEE doubles")
c("C70", Q, "C70_outlet_of_basin_refuted C70_records_exactly C70_closed_basins", "FALSE of the code for every cell whose water leaves the basin. C70_records_exactly: the records are the links with both ends inside and one self-link for every outside cell that receives water from inside; so the claim holds exactly for basins that no cell flows out of (C70_closed_basins)")
c("C71", Q, "C71_links_dropped_refuted C71_no_cascade_refuted C99_which_cells_cascade", "FALSE of the code: links to cells that flow to cell 0 are dropped; exactly the cells with a strictly lower neighbour that does not flow to cell 0 have a cascade (C99_which_cells_cascade)")
c("C69", P, "C69_lines_trace_segments C69_every_segment_has_a_line C69_ring_has_no_line C69_object C69_object_segments", "one-cell segments with flow cycles: exactly the segments below a headwater segment have a line")
c("C59", P, "C59_steepest_neighbour", "any arithmetic with a strict weak order on the slopes (exact rationals, binary64 without NaN slopes); DEMs with isolated valid cells: C72")
c("C60", P, "C60_unique_steepest_wins", "under the conditions of C59 (every valid cell has a valid neighbour with slope below 1e10 or a full row of neighbours); other DEMs: C72")
c("C61", P, "C61_always_computed", "no cell is left at -1 and every value is -2 or a cell number")
c("C62", P, "C62_nan_cells_isolated", "under the conditions of C59 (every valid cell has a valid neighbour with slope below 1e10 or a full row of neighbours); other DEMs: C72")
c("C63", Q, "C63_contested_outlet_refuted C63_terminal_cell_refuted C63_uncontested_outlet_partial", "FALSE of the code when the outlet or a terminal cell is one of several steepest neighbours of a cell; proved for all others")
c("C64", P, "C64_downhill_terrain_drains C64_binary64", "exact arithmetic; C64_binary64: the same for IEEE doubles")
c("C65", Q, "C65_mutual_steepest_refuted C65_rim_pit_refuted C65_filled_terrain_drains_partial C65_binary64_partial", "FALSE of the code: pits on the rim survive the fill and form cycles; proved for terrain whose rim cells have a lower neighbour; C65_binary64_partial: the same for IEEE doubles")
c("C66", P, "C66_any_history C66_repeated_call_same", "for every history of calls on the object")
c("C72", Q, "C59_padding_cell_refuted C61_isolated_corner_refuted C72_isolated_cells", "FALSE of the code: with two or more missing neighbours the call does not return (IndexError), with one the cell flows to the cell number N; cells with as many neighbours as any other are marked as sinks. C72_isolated_cells: exactly this, for every DEM on a symmetric neighbour table, any arithmetic with the order laws")
c("C26", Q, "C26_watershed_misses_cells_refuted C26_watershed_extra_cell_refuted C26_stale_reversal C26_first_directions_current_partial C26_watershed_of_latest_partial C26_other_answers_current C26_stored_accumulation C26_edits_are_seen C26_first_delineation_decides", "FALSE of the code: the reversed flow directions are computed once and never again (C26_stale_reversal, for every history); proved for histories without a watershed call before the latest flow_directions call, and for all calls but watersheds and subbasins in every history")
c("C58", Q, "C58_sfr6_stale_refuted C58_vectors_break_sfr6_refuted C58_sfr2005_stale_refuted C58_prms_stale_refuted C58_connectiondata_ignores_new_streams C58_segment_data_ignores_new_streams C58_vectors_replace_graph C58_sfr6_after_connectivity_partial C58_sfr6_first_use_partial C58_sfr2005_after_connectivity_partial C58_sfr2005_first_use_partial C58_prms_after_connectivity_partial C58_no_streams_yet", "FALSE of the code: graphs computed once are reused after a new delineation (in general); proved when get_stream_connectivity is called after the last delineation, or on first use")

c("C67", P, "C67_areas_of_cells C67_start_vertex C67_orientation C67_affine C67_position C67_quadratic_scaling C67_repeated_vertex C67_closed_polygon C67_triangle C67_polygon_of_triangles C67_cut C67_rectangle C67_axis_rectangle", "exact (real) arithmetic; triangles by Heron's formula from the side lengths")
c("C68", P, "C68_succeeds C68_aspect_range C68_vectors_point_downstream C68_self_draining", "exact (real) arithmetic; cells that drain to themselves point east, cells that drain nowhere: C74")
c("C73", P, "C73_slope_of_drainage_path C73_slope_zero", "exact (real) arithmetic")
c("C74", Q, "C74_sink_points_elsewhere_refuted C74_sink_slope_elsewhere_refuted", "FALSE of the code: the marker -2 is used as an index, so the cell gets the direction and slope towards the last but one cell of the grid")
c("C75", P, "C75_package_lengths_and_gradients", "exact (real) arithmetic; outlet lengths: C76")
c("C76", Q, "C76_outlet_length_refuted C76_outlet_length C76_outlet_length_closed_cell", "FALSE of the code: range(1, len(verts)) leaves out the closing side, so a w x h cell gets 1.5 (2w + h)/3; right for squares and for closed vertex lists")
c("C77", P, "C77_reach_lengths_and_slopes", "exact (real) arithmetic; for the records reach_data returns (it may raise KeyError: C49)")
c("C78", Q, "C78_wrong_slope_refuted C78_measured_to_last_reach_refuted C78_slope_to_the_next_reach", "FALSE of the code: the outreach column is never stored, so every slope is measured to the last reach of the whole network; proved for reach data with an outreach column supplied by the caller")
c("C79", P, "C79_slopes_within_limits C79_elevations C79_default_slope C79_binary64 C79_binary64_accurate C79_binary64_default", "exact (real) arithmetic; the limits also in binary64")
c("C80", Q, "C80_keywords_fail_refuted C80_defaults_cannot_be_set_refuted C80_group_segments_accepted", "FALSE of the code: `for k, v in kwargs` unpacks the key strings, so every keyword but group_segments raises")
c("C81", Q, "C81_self_draining_refuted C81_outlet_two_thirds_refuted C81_sink_fails_refuted C81_routed_length C81_one_inflow C81_no_inflow C81_positive C81_succeeds", "FALSE of the code for outlets (length 0, or two thirds of the way in) and with cells marked -2 (IndexError); the formula, positivity of cells with an exit and success on touching cells are proved")
c("C82", P, "C82_follows_current_streams C82_ungrouped C82_grouped C82_succeeds", "nreaches for a stored array with closed rings: see C45; hru_slope, hru_aspect, hru_area: C73, C68, C67")
c("C83", P, "C83_one_outlet_check", "an elevation below 1e10 exists (the code appends 1e10 to the array)")
c("C84", P, "C84_ties_by_position ties_exact", "neighbour lists without duplicates; terrain_ok excludes valid cells with only NaN neighbours (C72)")
c("C85", P, "C85_marked_cells_are_trapped C85_cells_with_an_exit_not_marked", "neighbour lists without duplicates; the converse is not claimed: outlets may be marked too (C63)")
c("C86", P, "C86_stems_and_large_streams C86_largest_of_all_inflows C86_binary64", "any number type for which taking 5 off never raises a value (cells, areas, truncated or not); C86_binary64: IEEE doubles with NaN. With a neighbour table of cells sharing a side the trace misses inflows across a corner (C86_rook_table_misses_corner_inflow)")
c("C87", Q, "C87_streams_end_in_the_landscape_refuted C87_run_on_exactly C87_run_on_cells", "FALSE of the code: nothing is added below a control point; true exactly if the cell below every control point is a stream cell")
c("C88", Q, "C88_everything_is_a_stream_refuted C88_default_threshold_refuted C88_only_the_stems_partial", "FALSE of the code: the default 0 makes every cell with an accumulation value a stream cell; true of thresholds above every accumulation value")
c("C89", Q, "C89_absorbed_eps C89_integer_refuted C89_float32_refuted C89_integer_step C89_whole_eps C89_pit_left", "FALSE of the code: the sum elevation + eps is stored back in the array type of the DEM. In integer DEMs (elevations >= 0) an eps below 1 is truncated away, in float32 DEMs at or above 64 the default 2e-06 is absorbed: the result is that of the complete fill and no raised cell drains. True of eps >= 1 on integer DEMs; float64: C03, C04")
c("C90", Q, "C90_boolean_mask_refuted C90_boolean_mask_exactly C90_wide_types C90_mf2005_any_type C90_mf2005_boolean_array_refuted", "FALSE of the code: reach numbers are written into a copy with the type of the mask, so with a boolean mask all reach numbers are 1 and the MODFLOW 6 graph has one reach; the MODFLOW-2005 records are unaffected but the stored stream array has one label. True of types that hold the reach numbers")
c("C91", Q, "C91_reach_data_refuted C91_detuple_refuted C91_empty_network_tables C91_detuple_nonempty", "FALSE of the code: reach_data and packagedata(detuple=True) raise IndexError on an empty network; all other tables are empty")
c("C92", P, "C92_terrain_to_sfr6 C92_terrain_to_sfr2005 C92_filled_terrain", "IEEE doubles; the terrain conditions are those of C64 and C65 (no tie between an outlet and another steepest neighbour, no pits on the rim); accumulation in cells; the recursion limit exceeds the number of cells; MODFLOW-2005 tables with group_segments=False (reach_data needs a stream cell: C91); grouped: C42, C43, C93")
c("C93", Q, "C93_outlet_flows_to_itself_refuted C93_no_outlet_refuted C93_ungrouped_outlet", "FALSE of the code with group_segments=True (the default): the outlet becomes a segment of its own whose outseg is its own number; for threshold streams, which run on to the outlets (C30), no segment has outseg 0. True with group_segments=False")
c("C94", P, "C94_calls_leave_arrays_alone C94_only_own_edits_change_an_array", "model of a session with a heap of arrays: MWorld.v; scratch arrays are new cells")
c("C95", P, "C95_streams_answer_as_if_alone C95_streams_forget_the_flow_object C95_flow_answers_as_if_alone", "the record tops, which come from the modelgrid, are left out (C97); many-to-many cascades also read the elevations, and the threshold without effect (C98), of the FlowDirections object at the time of the call")
c("C96", Q, "C96_flow_results_are_live_refuted C96_stream_array_is_live_refuted C96_connectivity_is_live_refuted C96_streams_share_the_flow_array_refuted C96_copies_belong_to_the_caller C96_unheld_stays_unheld C96_grid_top_is_never_handed_out", "FALSE of the code: flow_directions, flow_accumulation, dem, area, delineate_streams and the MODFLOW 6 connectivity hand out the stored object, set_stream_array keeps the caller's array, and stream objects share the arrays of the FlowDirections object. True of fill_sinks, fill_nan_values, get_nidp, get_watershed_boundary, get_subbasins, stream_array, irunbnd and modelgrid.top")
c("C97", Q, "C97_records_show_the_own_dem_refuted C97_records_show_the_last_dem C97_grid_top_is_the_last_dem C97_records_use_the_grid_top", "FALSE of the code: every stream constructor overwrites modelgrid.top, so the records of all stream objects on the modelgrid show the DEM of the one built last; true of that one")
c("C98", Q, "C98_cascades_ignore_the_threshold C98_exact C98_binary64 C98_binary64_few C98_binary64_refuted cascades_without_threshold b64_wide_laws b64_few_laws exact_laws similar_slopes", "FALSE of the code in float64: a burnt slope is an additional zero term of np.sum, which adds eight or more terms in another order, so that a share next to 0.01 can fall on the other side (witness on a 3x3 grid, 20 or 19 cascades). True in exact arithmetic; true in float64 with at most seven neighbours; true in float64 with up to 1000 neighbours if no slope is within a relative 1e-12 of one percent of the sum. Provided nobody writes into the elevations")
c("C99", Q, "C99_flats_have_no_cascade_refuted C99_witness_refuted C99_which_cells_cascade C99_which_cells_cascade_inside C99_binary64", "FALSE of the code: a slope of zero has share zero (or 0/0), so cells whose ways on are all level or burned have no cascade. Exactly the cells with a strictly lower neighbour that does not flow to cell 0 (or lies outside the boundary) have one (at most 99 neighbours, exact arithmetic); C99_binary64: the half with a lower neighbour in float64, NumPy order of np.sum, slopes up to 2^1000")
c("C100", Q, "C100_reach_table_overwritten_refuted C100_segment_table_overwritten_refuted C100_tables_not_passed_stay C100_second_call_changes_nothing write_reaches_spec", "FALSE of the code: with apply_defaults=True (the default) the columns strtop, slope, strhc1, strthick of a passed reach table and the default columns of a passed segment table are overwritten in place, and the tables become those of the returned object. With apply_defaults=False, and for tables not passed in, nothing changes; a second call changes nothing more")
c("C101", P, "C101_saved_objects_read_back C101_sessions_stay_valid C101_cascades_arguments_read_back C101_streams_arguments_read_back", "pickle is modelled as a stream of opcodes with a memo and a stack machine (MSave.v)")
c("C102", Q, "C102_interrupted_write_loses_the_file_refuted C102_other_files_stay", "FALSE of the code: open(f, 'wb') empties the file before the first byte is written, so an interrupted write leaves nothing to read (C103); true of other files")
c("C103", P, "C103_torn_files_are_refused C102_other_files_stay", "the crash points are the opcodes of the stream; a cut inside an opcode counts as a cut before it")
c("C104", P, "C104_cell_ids_and_nodes_agree C104_stream_array_keeps_its_entries C104_packagedata_cell_ids C104_detuple_keeps_records C104_detuple_refuses_no_records C104_reach_data_rows_and_columns C104_irunbnd_rows_and_columns", "NumPy's C order and flopy's cell numbering are modelled in MShape.v; reach_data with grouped segments, cells on closed rings have no record (C45)")
c("C105", Q, "C105_transposed_accepted_refuted C105_taken_in_order C105_wrong_size_refused", "FALSE of the code: only the number of entries is compared, so a transposed array is accepted and read in the order of its entries; arrays of another size are refused by set_stream_array")
c("C106", P, "C106_sort_any_insertion_order C106_permuted_connections", "")
c("C107", P, "C107_subbasins_any_order C107_control_points_any_order C107_terminal_cells_any_order", "any accumulation arithmetic, any recursion limit; the call with one list returns an array exactly if the call with the other does")
c("C108", P, "C108_cells_balance C108_area_balance C108_headwaters", "areas with exact addition; cells on a flow cycle are excluded (C22)")
c("C109", P, "C109_accumulation_is_watershed_size C109_area_is_watershed_area C109_watersheds_nest C109_watershed_is_union_of_subbasins C109_single_subbasin_is_watershed", "subbasins under the conditions of C27 (cell 0 is not a pour point, pour points not on a common cycle)")
c("C110", P, "C110_flood_any_neighbour_order C110_drain_any_neighbour_order C110_flood_binary64", "priority and complete without a stream mask for every elevation arithmetic including IEEE binary64; with a mask and for the drain method when equal elevations are identical values (integers; floats without -0.0)")
c("C111", P, "C111_complete_monotone C111_complete_any_units C111_complete_any_numbering C111_monotone_binary64", "no stream mask")
c("C112", Q, "C112_priority_monotone_refuted C112_priority_numbering_refuted C112_priority_monotone_within C112_priority_numbering_within", "FALSE of the code: rim cells of equal elevation are taken in the order of their numbers, so raising part of the rim lowers a filled cell, and turning the map changes the fill; proved: both hold up to N*eps")
c("C113", P, "C113_watershed_untouched C113_accumulation_untouched C113_any_addition_untouched C113_upstream_untouched C113_reroute_cells C113_reroute_area C113_reroute_watershed", "untouched cells keep their values for any addition whatever, rounding included (bitwise), also when areas outside the catchment change; what a re-route moves is exact for exact arithmetic; cells off flow cycles")
c("C114", P, "C114_directions_depend_on_comparisons C114_any_datum C114_any_units C114_local", "datum and units in exact (rational) arithmetic, below the sentinel 1e10; the general theorem holds for any arithmetic")
c("C115", Q, "C115_any_numbering_without_ties C115_ties_follow_the_numbering_refuted C115_neighbour_order_refuted", "FALSE of the code: of two equally steep neighbours that touch the first in the neighbour list is taken; proved: holds wherever every cell has one steepest neighbour")
c("C116", P, "C116_drain_is_least C116_drain_monotone C116_drained_unchanged C116_drain_twice C116_drain_any_numbering C116_drain_any_units C116_drain_is_least_binary64 C116_drain_monotone_binary64 C116_drain_twice_binary64", "unit change at cells below the flood level 1e10 in both models")
c("C117", Q, "C117_complete_below_drain C117_drain_below_priority C117_drain_below_priority_refuted C117_priority_below_drain_refuted", "FALSE of the code: 'drain' and 'priority' are not ordered (priority keeps a cell that is higher than its neighbour by less than epsilon; drain raises it); proved: complete <= drain <= complete + N*eps always, drain <= priority when no two elevations are closer than epsilon")
c("C118", P, "C118_package_table C118_detupled_table C118_empty_table_not_expanded C118_cell_ids_identify", "exact arithmetic for rlen and rgrd; get_lrc as flopy documents it (row-major); at an outlet, where the length is not a distance between centres, see C75-C78")
c("C119", P, "C119_network_of_a_basin C119_network_of_a_basin_cells C119_network_of_a_basin_binary64", "any arithmetic in which a sum is at least as large as its parts, binary64 included; acyclic directions; MODFLOW-2005 in grouped mode")
c("C120", P, "C120_order_and_repeats_do_not_matter C120_more_control_points_only_add C120_what_a_control_point_adds C120_streams_do_not_depend_on_how_thresholds_are_stored C120_type_of_threshold_irrelevant C120_stored_thresholds_are_cut C120_binary64", "order and repeats: also on grids with flow cycles; the rest: acyclic directions, any weakly ordered accumulation values with NaN, binary64 included for additions; truncation stated over exact rationals")
c("C121", P, "C121_flood_corresponds C121_flood_any_units C121_directions_of_filled_any_units", "exact rationals for the unit change; the correspondence theorem holds for any element types, NaN handling and fuel; directions need elevations and slopes below the 1e10 placeholders in both models")
c("C122", P, "C122_same_river C122_same_river_ungrouped", "grouped: cells of closed rings (which the MODFLOW-2005 table leaves out, C45) excepted; ungrouped: a reach that runs into itself excepted")
c("C123", P, "C123_areas_correspond C123_any_unit C123_streams_any_unit C123_contributions_add_up C123_cells_of_one_size C123_larger_areas C123_larger_areas_keep_streams C123_larger_areas_binary64", "superposition and one-size: any commutative associative addition; monotonicity also for binary64; unit change for conversions that commute with the addition (any factor in exact arithmetic, powers of two barring overflow in binary64)")
c("C124", P, "C124_cells_any_numbering C124_area_any_numbering C124_watershed_any_numbering C124_subbasins_any_numbering C124_streams_any_numbering C124_network6_any_numbering C124_network2005_any_numbering C124_segments_any_numbering C124_cascades_any_numbering", "accumulations off flow cycles, exact addition (the order of the summands follows the numbering); subbasins under the conditions of C27, neither pour point numbered 0 (C28); segments up to their numbers; irunbnd does depend on the numbering (C51_numbering_decides_refuted)")
c("C125", P, "C125_cells_with_cycles C125_area_with_cycles C125_cells_conserved C125_area_conserved C125_any_addition", "areas: exact addition; C125_any_addition: any addition, binary64 included")
c("C126", P, "C126_complete_within C126_complete_not_amplified C126_priority_not_amplified C126_drain_not_amplified C126_binary64", "no stream mask; exact arithmetic, C126_binary64: 'complete' with doubles, the difference measured in real numbers")
c("C127", P, "C127_edits_act_behind C127_ground_of_depressions C127_binary64", "no stream mask; any number type that satisfies the elevation laws")
c("C128", P, "C128_above C128_monotone C128_any_units C128_not_amplified", "exact (rational) arithmetic")
c("C129", P, "C129_directions_withstand_errors C129_binary64", "exact arithmetic; C129_binary64: IEEE doubles, with a relative 2e-14 for the rounding; both terrains under the conditions of C61")
c("C130", P, "C130_cascades_of_a_watershed", "as a set of records (repeated records: C53)")
c("C131", P, "C131_constant_array C131_basin_clips C131_thresholds_outside C131_basins_intersect")
c("C132", P, "C132_flood_with_nan C132_binary64", "general theorem for any arithmetic with the order laws on numbers and the NaN laws; instance: IEEE binary64 with its NaN")
c("C133", Q, "C133_drained_terrain_with_nan_unchanged_refuted C132_flood_with_nan", "FALSE of the code: comparisons with NaN break the order of heapq, so cells that have a strictly lower neighbour on the rim are raised (3 x 3 witness with one NaN cell, computed with doubles); what remains true is C132")
c("C134", Q, "C134_nan_stays_nan_refuted C134_nan_inside_becomes_1e10 C134_drain_reads_nan_as_1e10 C134_drain_with_nan_returns C134_binary64", "FALSE of the code: every NaN cell inside the rim comes back as 1e+10 (wf > NaN is never true, so the flood level stays); exactly: the call acts as if NaN were 1e+10, except that NaN cells on the rim stay NaN; it returns and does not lower numbers")
c("C135", P, "C135_landscape_cascades_descend C135_no_circles C135_delineated_streams_run_on C135_binary64 C135_streams_with_gaps_refuted", "for any arithmetic with the listed laws; instances: exact rationals and IEEE binary64; without the proviso it is false (_refuted theorem: a stream array with a gap and a burn threshold gives a circle)")
c("C136", P, "C136_water_is_conserved C136_routing_is_defined C136_binary64 C136_binary64_routing_is_defined C136_many_to_one_multiplies_refuted", "exact rationals; in doubles up to a factor (1 +- 1e-13)^(2N+1) with rounded fractions; many-to-one cascades multiply water at confluences (_refuted theorem, the duplicates of C53)")
c("C137", P, "C137_rain_reaches_the_outlets C137_binary64 C137_binary64_rain_reaches_the_outlets", "exact rationals; in binary64: the calls succeed, no circle, fractions add up to one within 1e-13, from every cell the records lead to outlets, all rain ends there up to (1 +- 1e-13)^(2N+1); the provisos exclude the refuted cases C63 (contested outlet) and C71 (neighbours that flow to cell 0 are dropped)")
c("C138", P, "C138_distance C138_distance_is_symmetric C138_lengths C138_outlet_length C138_reach_slope C138_gradient C138_small_drops_are_flat C138_distances_for_cascades", "IEEE binary64 (Flocq); x ** 2 is modelled as one rounded multiplication, sqrt as correctly rounded")
c("C139", P, "C139_steepest_in_real_numbers C139_clear_winner", "IEEE binary64; burnt-in drops (0 < rise < threshold counts as level) only affect uphill neighbours")
c("C140", P, "C140_connections C140_headwaters_and_confluences C140_segments C140_two_segments_for_every_headwater", "a cell that flows to itself counts as its own inflow, as in the code: an outlet with a river above it is a confluence of two arms")
c("C141", P, "C141_from_the_map_to_the_outlets C141_falling C141_downhill", "IEEE binary64; the hypotheses are about real numbers only; the provisos exclude the refuted cases C63 and C71")
c("C142", P, "C142_filled_terrain_is_downhill C142_fill_then_drain", "IEEE binary64; the provisos on the filled raster exclude the refuted cases C63, C65 and C71")
c("C143", P, "C143_clipped_directions C143_clipped_watershed C143_clipped_accumulation C143_clipped_streams", "any arithmetic with ordered slopes (rationals, binary64) and any addition of areas; the accumulation theorems need a pour point that is not on a flow cycle and has an inflow")
c("C144", P, "C144_accuracy C144_exact C144_areas_of_cells C144_position_matters", "IEEE binary64 (Flocq), round to nearest even; no relative bound: a cell far from the origin loses digits (C144_position_matters: a unit square at (2^27, 2^27) gets area 0)")
c("C145", P, "C145_numbers_grow_downstream C145_more_points_refine C145_new_point_splits_one C145_sizes_add_up C145_budget C145_area_budget", "pour points other than cell 0 (see C28), no two on a common flow cycle, as in C27; areas with exact addition")
c("C146", P, "C146_reach_cells C146_reach_areas C146_reach_cells_2005 C146_reach_cells_2005_ungrouped C146_ends_carry_all C146_segment_cells C146_segment_areas C146_one_reach_each C146_reach_is_sum_of_landscapes C146_delineated_streams_have_no_gaps", "stream arrays without gaps, reaches off flow cycles; areas: exact addition")
