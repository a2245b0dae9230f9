{
 "claims": [
  {
   "property": "C01",
   "status": "proved",
   "theorems": [
    "c01_mirror",
    "c01_no_internal_assert",
    "c01_refines_edge_list"
   ],
   "note": "Invariant over every operation history; refinement to one creation-ordered edge list."
  },
  {
   "property": "C02",
   "status": "proved",
   "theorems": [
    "c02_index_unobservable"
   ],
   "note": "For any two index thresholds, including never building the index."
  },
  {
   "property": "C03",
   "status": "proved",
   "theorems": [
    "c03_no_parallel",
    "c03_addEdge_exact",
    "c03_addEdge_idempotent"
   ],
   "note": ""
  },
  {
   "property": "C04",
   "status": "proved",
   "theorems": [
    "c04_removeEdge_exact",
    "c01_no_internal_assert"
   ],
   "note": ""
  },
  {
   "property": "C05",
   "status": "proved",
   "theorems": [
    "c05_removeNode_exact",
    "c05_numEdges_sum"
   ],
   "note": ""
  },
  {
   "property": "C06",
   "status": "partial",
   "theorems": [
    "c06_deadlock_refuted",
    "c06_no_deadlock_partial",
    "c06_completes_partial",
    "c06_addNewEdge_never_deadlocks"
   ],
   "note": "Refuted as worded: A->B and B->A on two threads lock the two edge mutexes in opposite order, also when each target node belongs to one thread. Proved when the addEdge calls respect a ranking of the nodes; addNewEdge never deadlocks."
  },
  {
   "property": "C07",
   "status": "partial",
   "theorems": [
    "c07_linearizable",
    "c07_real_time",
    "c07_ends_agree",
    "c07_addEdge_unique",
    "c07_removeEdge_same_object_refuted",
    "c07_parallel_order_partial"
   ],
   "note": "All clauses proved for every interleaving except the last: removeEdge after concurrent addNewEdge on one pair is refuted, and proved when each ordered pair has one writing thread. Steps are lock acquisitions, list pushes and releases under sequential consistency."
  },
  {
   "property": "C08",
   "status": "proved",
   "theorems": [
    "c08_dfs_exact",
    "c08_dfs_total"
   ],
   "note": "Generic over edge lists and predicate; both directions instantiated. Recursion depth of run() (a tail call) is not modelled."
  },
  {
   "property": "C09",
   "status": "proved",
   "theorems": [
    "c09_fanOut_exact",
    "c09_fanIn_exact"
   ],
   "note": ""
  },
  {
   "property": "C10",
   "status": "proved",
   "theorems": [
    "c10_duality",
    "c10_state_ends"
   ],
   "note": ""
  },
  {
   "property": "C11",
   "status": "proved",
   "theorems": [
    "c11_path_real"
   ],
   "note": "Includes termination of buildPath and unreachability of its assertions."
  },
  {
   "property": "C12",
   "status": "partial",
   "theorems": [
    "c12_path_complete_partial",
    "c12_path_complete_refuted",
    "c12_self_path_empty",
    "c12_build_self"
   ],
   "note": "Refuted as worded: find(n,n) is always empty, even when n lies on a cycle. Proved for distinct end points."
  },
  {
   "property": "C13",
   "status": "proved",
   "theorems": [
    "c13_comb_path"
   ],
   "note": ""
  },
  {
   "property": "C14",
   "status": "proved",
   "theorems": [
    "c14_loops_sound"
   ],
   "note": ""
  },
  {
   "property": "C15",
   "status": "proved",
   "theorems": [
    "c15_loops_complete"
   ],
   "note": ""
  },
  {
   "property": "C16",
   "status": "partial",
   "theorems": [
    "c16_all_loops_refuted"
   ],
   "note": "Refuted: a graph with loops 0-1-2 and 0-2 has only the first reported. What does hold is C15: every node on a loop is on a reported loop."
  },
  {
   "property": "C17",
   "status": "proved",
   "theorems": [
    "c17_lookup_exact"
   ],
   "note": ""
  },
  {
   "property": "C18",
   "status": "partial",
   "theorems": [
    "c18_lookup_misses_added_refuted",
    "c18_lookup_returns_removed_refuted",
    "c18_lookup_current_partial"
   ],
   "note": "Refuted as worded: the index is built once and never refreshed. Proved for histories without additions or removals after the first lookup."
  },
  {
   "property": "C19",
   "status": "proved",
   "theorems": [
    "c19_bit_drivers_exact",
    "c19_drivers_exact"
   ],
   "note": "Address order of nodes is a parameter. Disabled edges count as drivers in both queries."
  },
  {
   "property": "C20",
   "status": "proved",
   "theorems": [
    "c20_sensitivity_exact"
   ],
   "note": ""
  },
  {
   "property": "C21",
   "status": "partial",
   "theorems": [
    "c21_constant_drivers_partial",
    "c21_register_ignored_refuted"
   ],
   "note": "Refuted as worded: registers are not noticed because the fan-in cone never contains one. The exact behaviour is proved."
  },
  {
   "property": "C22",
   "status": "proved",
   "theorems": [
    "c22_coverage_exact",
    "c22_order_irrelevant"
   ],
   "note": ""
  },
  {
   "property": "C23",
   "status": "partial",
   "theorems": [
    "c23_glob_exact",
    "c23_spellings_interchangeable_refuted",
    "c23_spellings_interchangeable_partial"
   ],
   "note": "Language equality and termination proved for every text and pattern. The clause that ** and ... are interchangeable is refuted when a further dot touches them, and proved otherwise."
  },
  {
   "property": "C24",
   "status": "partial",
   "theorems": [
    "c24_scope_exact",
    "c24_scope_preorder",
    "c24_scope_is_glob",
    "c24_glob_dots_refuted"
   ],
   "note": "Exactness and preorder proved in full. The glob agreement needs a scope without * ? and without a run of dots that reads as ... ; refuted otherwise."
  },
  {
   "property": "C25",
   "status": "proved",
   "theorems": [
    "c25_parse_inverts_print",
    "c25_parse_exact"
   ],
   "note": "The printed range is normalised, so the parsed range has the upper bound on the left."
  },
  {
   "property": "C26",
   "status": "partial",
   "theorems": [
    "c26_intersection_exact",
    "c26_union_exact",
    "c26_contiguous_partial",
    "c26_no_overflow_refuted",
    "c26_overflow_exact"
   ],
   "note": "Set meaning proved; the no-overflow clause is refuted at INT32_MAX and the overflow condition is given exactly."
  },
  {
   "property": "C27",
   "status": "partial",
   "theorems": [
    "c27_annotation_kept_refuted",
    "c27_annotation_kept_partial"
   ],
   "note": "Refuted as worded: a second symbol on the same node pair overwrites the annotation of the first. Proved, with exactness, when each pair sees one symbol. Bounds are read after the cut to the source node bounds; int32 overflow is a distinct outcome."
  },
  {
   "property": "C28",
   "status": "partial",
   "theorems": [
    "c28_difference_refuted",
    "c28_difference_bits",
    "c28_difference_safe",
    "c28_difference_partial",
    "c28_difference_wellformed"
   ],
   "note": "Refuted as worded: [0,5] minus {[0,4],[5,5]} leaves [5,5]. The covered bits are given exactly; exact when no two intervals of the second map are adjacent; never loses a bit."
  },
  {
   "property": "C29",
   "status": "proved",
   "theorems": [
    "c29_refines_store",
    "c29_allocate_fresh",
    "c29_allocate_total",
    "c29_write_local",
    "c29_clone_independent",
    "c29_assign_swap"
   ],
   "note": "Pointer-level model refined to a by-value store, for every history over any number of managers."
  },
  {
   "property": "C30",
   "status": "partial",
   "theorems": [
    "c30_coverage_partial",
    "c30_completes_refuted"
   ],
   "note": "Everything stated is proved for each history that completes, and a stale handle is the only failure. Some histories with replacing calls do abort on a stale handle: c30_completes_refuted."
  },
  {
   "property": "C31",
   "status": "partial",
   "theorems": [
    "c31_drivers_exact_refuted",
    "c31_merge_spurious_refuted",
    "c31_drivers_exact_partial"
   ],
   "note": "Refuted as worded: the two halves of a split interval share one driver list. Proved, with completion and no stale handle, when no call lies strictly inside the range of an earlier one."
  },
  {
   "property": "C32",
   "status": "proved",
   "theorems": [
    "c32_merge_keeps"
   ],
   "note": ""
  },
  {
   "property": "C33",
   "status": "partial",
   "theorems": [
    "c33_getDrivers_refuted",
    "c33_getDrivers_partial",
    "c33_getDrivers_sound",
    "c33_each_interval_exact"
   ],
   "note": "Refuted as worded: partially overlapping intervals are skipped. Exact when no interval straddles an end of the range; always sound; forEachDriverInterval is exact."
  },
  {
   "property": "C34",
   "status": "proved",
   "theorems": [
    "c34_slot_unique",
    "c34_in_bounds",
    "c34_slot_exclusive",
    "c34_reverse_map",
    "c34_no_deadlock"
   ],
   "note": "Steps are the atomic map operations, fetch_add, lock operations and the resize. slotToValue lags: an example shows a returned slot that getSymbol would not find yet."
  },
  {
   "property": "C35",
   "status": "partial",
   "theorems": [
    "c35_tiling_refuted",
    "c35_tiling_partial",
    "c35_tiling_disabled"
   ],
   "note": "Refuted as worded: a select with a variable index and a cut hint inside its prefix gives a list wider than the expression. Proved for every expression in which no hint falls inside such a prefix."
  },
  {
   "property": "C36",
   "status": "partial",
   "theorems": [
    "c36_attribution_exact",
    "c36_values_refuted",
    "c36_values_partial"
   ],
   "note": "Attribution proved exact against an independent bit-origin function for every static expression. Against values: refuted for sign extension, whose bits are padding; proved (non-interference) otherwise. Variable selects: see C66."
  },
  {
   "property": "C37",
   "status": "proved",
   "theorems": [
    "c37_alignment_refines",
    "c37_slice_unique"
   ],
   "note": ""
  },
  {
   "property": "C38",
   "status": "partial",
   "theorems": [
    "c38_flow_refuted",
    "c38_flow_partial",
    "c38_flow_complete",
    "c38_flow_exact_when_cut",
    "c38_output_argument",
    "c38_no_write"
   ],
   "note": "Refuted as worded: y = x of two bits is one segment, so y[0] is recorded as reading x[1]. Proved: the dependencies are exactly those inside one aligned segment, none is missed, and they are bit-exact when every bit is cut."
  },
  {
   "property": "C39",
   "status": "proved",
   "theorems": [
    "c39_hints_refine",
    "c39_registry_hints_sorted"
   ],
   "note": "For expressions without a variable select in a pass-through position; with one see C35."
  },
  {
   "property": "C40",
   "status": "partial",
   "theorems": [
    "c40_widening",
    "c40_narrowing",
    "c40_folded",
    "c40_zero_is_zero_partial",
    "c40_zero_is_zero_refuted"
   ],
   "note": "The attribution is proved. Whether the claimed constant 0 is the value is proved for conversions that do not sign-extend and refuted for an explicit cast of a signed operand to an unsigned type."
  },
  {
   "property": "C41",
   "status": "partial",
   "theorems": [
    "c41_round_trip_exact",
    "c41_round_trip_partial",
    "c41_round_trip_refuted",
    "c41_merge_keeps_targets",
    "c41_merge_no_repeats",
    "c41_equal_ids_refuted"
   ],
   "note": "Refuted as worded: parallel edges are merged on loading. Proved: the exact result for every graph, and the identity when no two edges share both ends, ranges ascend and constants survive their text form."
  },
  {
   "property": "C42",
   "status": "partial",
   "theorems": [
    "c42_accepts_malformed_refuted",
    "c42_accepted_partial",
    "c42_container_well_formed",
    "c42_all_or_nothing_refuted",
    "c42_kind_codec",
    "c42_edge_kind_codec",
    "c42_direction_codec",
    "c42_codecs_injective"
   ],
   "note": "Refuted as worded: misspelt kinds and directions, a version that wraps to 3, repeated IDs and non-object symbols are accepted. Proved: what acceptance does guarantee, and that the container is well formed after any document."
  },
  {
   "property": "C43",
   "status": "proved",
   "theorems": [
    "c43_add_file_correct",
    "c43_index_stable",
    "c43_linearizable",
    "c43_progress",
    "c43_marker_collision"
   ],
   "note": "concurrent_map operations are atomic steps by contract. getFilename concurrent with addFile is a data race on the deque and is not modelled."
  },
  {
   "property": "C44",
   "status": "proved",
   "theorems": [
    "c44_one_record_per_path",
    "c44_address_stable",
    "c44_linearizable",
    "c44_progress"
   ],
   "note": "An address inside the deque is modelled as the position of the record."
  },
  {
   "property": "C45",
   "status": "proved",
   "theorems": [
    "c45_drain_schedule_independent",
    "c45_exception",
    "c45_no_deadlock"
   ],
   "note": "Each block makes the same enqueue calls whatever the schedule; node objects are named by the block that creates them."
  },
  {
   "property": "C46",
   "status": "proved",
   "theorems": [
    "c46_runs_partition",
    "c46_threads_disjoint"
   ],
   "note": ""
  },
  {
   "property": "C47",
   "status": "partial",
   "theorems": [
    "c47_schedule_independent",
    "c47_progress",
    "c47_same_edges",
    "c47_stable_sort_same_partial",
    "c47_same_bits_partial",
    "c47_same_annotations_refuted",
    "c47_symbol_order_refuted"
   ],
   "note": "Refuted as worded: the sort is not stable and annotations depend on the order of calls for a pair. Proved: schedules do not matter, the (source,target) pairs agree always, the annotations agree under a stable order, and the annotated bits agree for one symbol per pair."
  },
  {
   "property": "C48",
   "status": "partial",
   "theorems": [
    "c48_dropped_refuted",
    "c48_twice_refuted",
    "c48_accounted_partial"
   ],
   "note": "Refuted as worded: definitions straddling an end of the read are dropped and the highest bit may be both. Proved for any state: undefined bits are queued, edges are sound, and complete when nothing straddles."
  },
  {
   "property": "C49",
   "status": "partial",
   "theorems": [
    "c49_common_node_refuted",
    "c49_spurious_refuted",
    "c49_join_keeps",
    "c49_join_union_partial",
    "c49_unreachable",
    "c49_merge_node",
    "c49_meet"
   ],
   "note": "Refuted as worded: a common node is forgotten and a join may attribute bits to the wrong assignment. Proved: no driver is lost; exact union for equal-or-disjoint writes; unreachable branches; the merge node."
  },
  {
   "property": "C50",
   "status": "partial",
   "theorems": [
    "c50_self_read_refuted",
    "c50_aborts_refuted",
    "c50_straight_line_partial"
   ],
   "note": "Refuted as worded: an assignment that reads what it writes sees itself, and overlapping writes may abort. Proved for equal-or-disjoint writes without self reads."
  },
  {
   "property": "C51",
   "status": "partial",
   "theorems": [
    "c51_select_refuted",
    "c51_exact",
    "c51_symbols_partial",
    "c51_combinational"
   ],
   "note": "Refuted as worded: an edge on an expression that is not a symbol (clk[0]) leaves the block combinational. Proved for events that name symbols; exact result for all."
  },
  {
   "property": "C52",
   "status": "partial",
   "theorems": [
    "c52_spanning_refuted",
    "c52_hookup_exact",
    "c52_hooked_partial",
    "c52_no_single_port"
   ],
   "note": "Refuted as worded: a range spanning two port nodes is hooked to none. Proved: exact characterisation; the claim for ranges within a port node."
  },
  {
   "property": "C53",
   "status": "proved",
   "theorems": [
    "c53_partition",
    "c53_input_drivers",
    "c53_no_internal"
   ],
   "note": ""
  },
  {
   "property": "C54",
   "status": "proved",
   "theorems": [
    "c54_cuts_sorted",
    "c54_cuts_exact",
    "c54_cuts_null",
    "c54_cuts_order"
   ],
   "note": ""
  },
  {
   "property": "C55",
   "status": "proved",
   "theorems": [
    "c55_constant_slice",
    "c55_constant_rebuilt",
    "c55_assignment_constants"
   ],
   "note": ""
  },
  {
   "property": "C56",
   "status": "partial",
   "theorems": [
    "c56_registers",
    "c56_reader_partial",
    "c56_select_refuted",
    "c56_other_ranges_refuted",
    "c56_combinational"
   ],
   "note": "The structure of registers and the combinational case are proved. Refuted: a reader of a range other than exactly that of a register gets no edge."
  },
  {
   "property": "C57",
   "status": "partial",
   "theorems": [
    "c57_other_scope_refuted",
    "c57_body",
    "c57_value",
    "c57_memo",
    "c57_identity",
    "c57_structure_partial",
    "c57_instance",
    "c57_final"
   ],
   "note": "Refuted as worded: values in scopes that are not paired (statement blocks) keep the local symbol. Proved for all values reached through generate blocks, generate block arrays and instance arrays, for all instance bodies, all query orders."
  },
  {
   "property": "C58",
   "status": "proved",
   "theorems": [
    "c58_induced",
    "c58_unreachable"
   ],
   "note": ""
  },
  {
   "property": "C59",
   "status": "partial",
   "theorems": [
    "c59_table",
    "c59_offset",
    "c59_as_wide_as_shown_refuted"
   ],
   "note": "Refuted as worded: widths are counted in bytes but padded in display columns. Proved for all text whose column count is at most its byte count; exact for ASCII."
  },
  {
   "property": "C60",
   "status": "partial",
   "theorems": [
    "c60_mode",
    "c60_reported_partial",
    "c60_unreachable_exact",
    "c60_never_undefined_refuted",
    "c60_files_needed_refuted"
   ],
   "note": "Refuted as worded: an inout port on the path is SLANG_UNREACHABLE. Proved: it is the only cause; all other paths are reported in full."
  },
  {
   "property": "C61",
   "status": "partial",
   "theorems": [
    "c61_stats_exact_partial",
    "c61_stats_ordered_partial",
    "c61_mean_at_most_max_refuted",
    "c61_median_at_most_max_refuted"
   ],
   "note": "Refuted as worded in binary64 (rounding, overflow). Proved over rationals."
  },
  {
   "property": "C62",
   "status": "proved",
   "theorems": [
    "c62_pattern",
    "c62_ports",
    "c62_variables",
    "c62_blocks",
    "c62_boxes",
    "c62_connections",
    "c62_hidden",
    "c62_nodes",
    "c62_ports_created",
    "c62_recorded",
    "c62_stops",
    "c62_total_refuted"
   ],
   "note": "The traversal stops at a multi-port connection (SLANG_UNREACHABLE), which is not part of the property; c62_stops says exactly when."
  },
  {
   "property": "C63",
   "status": "partial",
   "theorems": [
    "c63_lookup_refuted",
    "c63_lookup_partial",
    "c63_lookup_all"
   ],
   "note": "Refuted as worded for bounds given in descending order; proved for ascending bounds."
  },
  {
   "property": "C64",
   "status": "partial",
   "theorems": [
    "c64_lone_from",
    "c64_lone_to",
    "c64_fan_out_wins",
    "c64_fan_in_wins_partial",
    "c64_fan_in_wins_refuted",
    "c64_fan_in_ignored",
    "c64_both_path"
   ],
   "note": "Refuted as worded: --fan-in next to a lone --from is ignored. Proved for all other combinations."
  },
  {
   "property": "C65",
   "status": "partial",
   "theorems": [
    "c65_part_refuted",
    "c65_two_nodes_refuted",
    "c65_equal_bounds_partial",
    "c65_other_reads"
   ],
   "note": "Refuted as worded for partial ranges and for two nodes of equal bounds. Proved: exact characterisation by equal bounds."
  },
  {
   "property": "C66",
   "status": "partial",
   "theorems": [
    "c66_variable_select_refuted",
    "c66_assignment_drops_index",
    "c66_opaque_select_partial"
   ],
   "note": "Refuted: only the first bits of the static prefix are named and the index is dropped. In an opaque position nothing is lost."
  },
  {
   "property": "C67",
   "status": "partial",
   "theorems": [
    "c67_assignment_total_refuted",
    "c67_assignment_total_partial"
   ],
   "note": "Refuted for a select of a non-variable (null root symbol dereferenced). Proved for static expressions."
  },
  {
   "property": "C68",
   "status": "proved",
   "theorems": [
    "c68_emission_exact",
    "c68_state_first",
    "c68_no_node"
   ],
   "note": "For driver maps without stale handles (see C30, C31)."
  },
  {
   "property": "C69",
   "status": "proved",
   "theorems": [
    "c69_resolution_exact",
    "c69_parallel_exact"
   ],
   "note": "For pairs whose calls name one symbol and driver maps without stale handles."
  },
  {
   "property": "C70",
   "status": "partial",
   "theorems": [
    "c70_second_refuted",
    "c70_after_refuted",
    "c70_first_partial"
   ],
   "note": "Refuted: only the first assignment of a branch gets the control edge, and the statement after an if gets one too. Proved: every segment of the first assignment has it."
  },
  {
   "property": "C71",
   "status": "partial",
   "theorems": [
    "c71_maybe_unwritten_refuted",
    "c71_unwritten_partial"
   ],
   "note": "Refuted: one write on one path hides the outside value. Proved: bits no path has written are queued."
  },
  {
   "property": "C72",
   "status": "partial",
   "theorems": [
    "c72_branches_refuted",
    "c72_last_partial"
   ],
   "note": "Refuted: only the write that is last in source order drives. Proved: it is the only driver."
  },
  {
   "property": "C73",
   "status": "proved",
   "theorems": [
    "c73_reaching_definitions"
   ],
   "note": "Highest bits of reads may be queued although defined (see C48); that is part of the statement."
  },
  {
   "property": "C74",
   "status": "partial",
   "theorems": [
    "c74_excluded_refuted",
    "c74_blocking_partial",
    "c74_references_partial"
   ],
   "note": "Refuted for bit-aligned assignments. Proved: excluded blocking writes never become drivers; the legacy path and conditions do nothing in unreachable code."
  },
  {
   "property": "C75",
   "status": "partial",
   "theorems": [
    "c75_automatic_refuted",
    "c75_legacy_partial"
   ],
   "note": "Refuted for bit-aligned assignments (the default). Proved for the legacy path."
  },
  {
   "property": "C76",
   "status": "partial",
   "theorems": [
    "c76_part_refuted",
    "c76_equal_bounds_partial"
   ],
   "note": "Refuted as worded for partial ranges. Proved: exact characterisation by equal bounds."
  },
  {
   "property": "C77",
   "status": "proved",
   "theorems": [
    "c77_formal_side",
    "c77_zero_width",
    "c77_single_node_refuted"
   ],
   "note": "The header comment that a segment spans exactly one port node is refuted (inout ports); it is not part of the property."
  },
  {
   "property": "C78",
   "status": "partial",
   "theorems": [
    "c78_dynamic_refuted",
    "c78_opaque_output_refuted",
    "c78_input_partial",
    "c78_output_partial",
    "c78_output_lvalue_partial",
    "c78_legacy",
    "c78_input_built",
    "c78_output_built"
   ],
   "note": "Refuted as worded: variable-index selects read only the lowest bits; an opaque actual of an output is read instead of driven. Proved without those; the legacy path exactly; the effect on the builder."
  },
  {
   "property": "C79",
   "status": "partial",
   "theorems": [
    "c79_conditional_refuted",
    "c79_folded_refuted",
    "c79_recorded_partial",
    "c79_sorted",
    "c79_no_straddle_partial"
   ],
   "note": "Refuted as worded for conditional actuals and folded conversions. Proved for the others."
  },
  {
   "property": "C80",
   "status": "partial",
   "theorems": [
    "c80_conditional_refuted",
    "c80_grid_partial"
   ],
   "note": "Refuted as worded for conditional actuals, whose cuts are not recorded. Proved for actuals without conditionals and folded conversions."
  },
  {
   "property": "C81",
   "status": "proved",
   "theorems": [
    "c81_cuts_first",
    "c81_cuts_complete",
    "c81_connections_last"
   ],
   "note": ""
  },
  {
   "property": "C82",
   "status": "partial",
   "theorems": [
    "c82_reads_back_partial",
    "c82_reads_back_refuted"
   ],
   "note": "Refuted as worded: names are not escaped. Proved for names and constants without quotes and backslashes."
  },
  {
   "property": "C83",
   "status": "partial",
   "theorems": [
    "c83_enabled_values_partial",
    "c83_enabled_values_refuted"
   ],
   "note": "Refuted as worded: the first parallel edge is reported even if disabled. Proved when parallel edges agree."
  },
  {
   "property": "C84",
   "status": "partial",
   "theorems": [
    "c84_false_flag_refuted",
    "c84_flag_value_ignored"
   ],
   "note": "Refuted as worded: the flags are tested with has_value(). Proved: the value never matters."
  },
  {
   "property": "C85",
   "status": "proved",
   "theorems": [
    "c85_registers",
    "c85_fan_out",
    "c85_fan_in",
    "c85_sensitivity",
    "c85_constants",
    "c85_drivers"
   ],
   "note": ""
  },
  {
   "property": "C86",
   "status": "proved",
   "theorems": [
    "c86_find",
    "c86_find_regex"
   ],
   "note": "Regular expressions themselves are external."
  },
  {
   "property": "C87",
   "status": "partial",
   "theorems": [
    "c87_any_name_refuted",
    "c87_any_name_partial"
   ],
   "note": "Refuted as worded for names ending like a bit range. Proved for all others."
  },
  {
   "property": "C88",
   "status": "partial",
   "theorems": [
    "c88_all_nodes_refuted",
    "c88_path_refuted",
    "c88_single_node_partial"
   ],
   "note": "Refuted as worded: only the first node of a name is used. Proved for fan-out cones of names with one node."
  },
  {
   "property": "C89",
   "status": "proved",
   "theorems": [
    "c89_json",
    "c89_tables"
   ],
   "note": ""
  },
  {
   "property": "C90",
   "status": "proved",
   "theorems": [
    "c90_scoped_dot"
   ],
   "note": ""
  },
  {
   "property": "C91",
   "status": "proved",
   "theorems": [
    "c91_wildcard_test",
    "c91_literal_is_equal"
   ],
   "note": ""
  },
  {
   "property": "C92",
   "status": "proved",
   "theorems": [
    "c92_selected",
    "c92_answers_unique"
   ],
   "note": ""
  },
  {
   "property": "C93",
   "status": "partial",
   "theorems": [
    "c93_rejected_only_if_nothing_refuted",
    "c93_rejected_exact",
    "c93_rejected_only_if_nothing_partial"
   ],
   "note": "Refuted as worded: a pattern whose matches are all selected already is an error. The exact cause of every rejection is proved; the wording holds for options with disjoint answers."
  },
  {
   "property": "C94",
   "status": "partial",
   "theorems": [
    "c94_once_refuted",
    "c94_times",
    "c94_once_partial"
   ],
   "note": "Refuted as worded: nested scopes list a symbol once each. The exact multiplicity is proved; once when no selected scope is inside another."
  },
  {
   "property": "C95",
   "status": "proved",
   "theorems": [
    "c95_table",
    "c95_json",
    "c95_listed_unique",
    "c95_ast",
    "c95_no_report"
   ],
   "note": "The symbol tree is what the slang visitor sees."
  },
  {
   "property": "C96",
   "status": "proved",
   "theorems": [
    "c96_same_data"
   ],
   "note": ""
  },
  {
   "property": "C97",
   "status": "partial",
   "theorems": [
    "c97_lost_refuted",
    "c97_recorded_partial",
    "c97_tail_recorded",
    "c97_after_chain"
   ],
   "note": "Refuted as worded: an operand after a conditional expression is lost. Exact: recorded iff an odd number of evaluation paths lead to it."
  },
  {
   "property": "C98",
   "status": "partial",
   "theorems": [
    "c98_conditional_refuted",
    "c98_and_refuted",
    "c98_enter_partial",
    "c98_control_partial",
    "c98_plain",
    "c98_chain"
   ],
   "note": "Refuted as worded for conditions that are conditional expressions, or && and || where these branch. Exact: iff an odd number of evaluation paths give the outcome."
  },
  {
   "property": "C99",
   "status": "proved",
   "theorems": [
    "c99_cone_determines",
    "c99_built"
   ],
   "note": "Composition of the models of all phases. Procedural blocks, registers, interfaces and conditional operators inside operands are outside this model."
  },
  {
   "property": "C100",
   "status": "partial",
   "theorems": [
    "c100_signed_refuted",
    "c100_cuts_refuted"
   ],
   "note": "Refuted as worded, once for each restriction: the sign bit is not attributed to the extension; with cuts but without bit resolution an assignment across a cut of an output port drives none of its nodes. With the restrictions it is C99."
  },
  {
   "property": "C101",
   "status": "proved",
   "theorems": [
    "c101_sinks"
   ],
   "note": ""
  },
  {
   "property": "C102",
   "status": "partial",
   "theorems": [
    "c102_slices_refuted",
    "c102_register_refuted",
    "c102_single_partial"
   ],
   "note": "Refuted as worded: a vector is listed if one slice is tied, and registers behind a sink are ignored. Partial: a sink of one node with no register behind it has no undriven port behind it."
  },
  {
   "property": "C103",
   "status": "proved",
   "theorems": [
    "c103_domains",
    "c103_rows"
   ],
   "note": ""
  },
  {
   "property": "C104",
   "status": "partial",
   "theorems": [
    "c104_shared_refuted",
    "c104_shared_partial"
   ],
   "note": "Refuted as worded: two slices of a clock vector have the same path. Partial: if clock sources have distinct texts."
  },
  {
   "property": "C105",
   "status": "proved",
   "theorems": [
    "c105_ranges",
    "c105_nodes"
   ],
   "note": ""
  },
  {
   "property": "C106",
   "status": "partial",
   "theorems": [
    "c106_every_bit_refuted",
    "c106_every_bit_partial"
   ],
   "note": "Refuted as worded: a port node with an edge for some of its bits counts as driven (source text in Properties_Py2.v, c106_source). Partial: if every edge into the node covers it."
  },
  {
   "property": "C107",
   "status": "proved",
   "theorems": [
    "c107_row"
   ],
   "note": ""
  },
  {
   "property": "C108",
   "status": "partial",
   "theorems": [
    "c108_names_refuted",
    "c108_self_refuted",
    "c108_first_partial",
    "c108_true_sound"
   ],
   "note": "Refuted as worded: only the first node of a name is looked at, and a node never reaches itself. Exact for the first nodes; True is always right."
  },
  {
   "property": "C109",
   "status": "partial",
   "theorems": [
    "c109_front_refuted",
    "c109_ends_partial",
    "c109_access",
    "c109_edit"
   ],
   "note": "Refuted as worded: front and back of the empty path (no path found) are undefined. Exact conditions proved."
  },
  {
   "property": "C110",
   "status": "proved",
   "theorems": [
    "c110_edges_feed",
    "c110_cone_connected"
   ],
   "note": "Same model as C99; the design may not name port identifiers in assignments (identifiers of ports and variables are distinct)."
  },
  {
   "property": "C111",
   "status": "partial",
   "theorems": [
    "c111_two_drivers_refuted"
   ],
   "note": "Refuted as worded: a driver added to one half of a split interval shows up in the other half. With one driver per bit it is C110."
  },
  {
   "property": "C112",
   "status": "proved",
   "theorems": [
    "c112_edges_exact",
    "c112_cone_exact"
   ],
   "note": "Same model and conditions as C110."
  },
  {
   "property": "C113",
   "status": "proved",
   "theorems": [
    "c113_build_succeeds"
   ],
   "note": "Same model and conditions as C110."
  },
  {
   "property": "C114",
   "status": "partial",
   "theorems": [
    "c114_annotations_complete_refuted",
    "c114_annotations_right",
    "c114_annotations_exact_partial"
   ],
   "note": "Refuted as worded: the range of the variable is intersected with the bounds of the port node although these index the port, so bits of w[5:2] connected to a port [3:0] are lost. Every annotated bit is passed; exact for bits within the bounds of the source node that carry one name."
  },
  {
   "property": "C115",
   "status": "proved",
   "theorems": [
    "c115_cone_determines",
    "c115_built"
   ],
   "note": "The restrictions in the quantifier are each needed or external contracts: C116 refutes the property without them (shape of branches, ranges of reads, settled reads). Blocks are always_comb: no clock, no latch. When a case item matches is a parameter; a case without default whose items cover all values is left out."
  },
  {
   "property": "C116",
   "status": "partial",
   "theorems": [
    "c116_branch_refuted",
    "c116_straddle_refuted",
    "c116_maybe_refuted"
   ],
   "note": "Refuted as worded, one witness per dropped restriction: only the first statement of a branch has an edge from the condition; a read across two writes finds one of them; after a write on some paths the value from before the block is lost. C115 is the companion."
  },
  {
   "property": "C117",
   "status": "proved",
   "theorems": [
    "c117_output_same_state",
    "c117_register_same_state",
    "c117_output",
    "c117_register",
    "c117_built"
   ],
   "note": "The restrictions in the quantifier are needed: C118 refutes the property without them. The first two theorems let all registers agree and need no condition on reads."
  },
  {
   "property": "C118",
   "status": "partial",
   "theorems": [
    "c118_else_refuted",
    "c118_default_refuted",
    "c118_part_refuted"
   ],
   "note": "Refuted as worded: the second non-blocking assignment to a register replaces the first, so its State node misses the sources of the first; a read of part of a register has no edge from its State node. C117 is the companion."
  },
  {
   "property": "C119",
   "status": "partial",
   "theorems": [
    "c119_same_answer_refuted",
    "c119_same_answer_partial",
    "c119_same_text_partial",
    "c119_two_runs_partial"
   ],
   "note": "Refuted as worded: parallel edges are lost in loading, so --drivers loses a row. Proved for netlists without parallel edges whose parts can be stored; DOT needs nodes numbered as loading numbers them, --comb-loops increasing numbers."
  },
  {
   "property": "C120",
   "status": "partial",
   "theorems": [
    "c120_save_refuted",
    "c120_command_refuted",
    "c120_done_partial",
    "c120_save_ignored",
    "c120_command_ignored"
   ],
   "note": "Refuted as worded: --save-netlist is ignored with --load-netlist, and commands are ignored with --save-netlist. Otherwise proved."
  },
  {
   "property": "C121",
   "status": "proved",
   "theorems": [
    "c121_failure",
    "c121_files"
   ],
   "note": "Diagnostics of the compiler and loop reports printed before an exception are not modelled."
  },
  {
   "property": "C122",
   "status": "partial",
   "theorems": [
    "c122_json_refuted",
    "c122_json_partial"
   ],
   "note": "Refuted as worded: --stats-json appends a second document. Without it there is at most one."
  },
  {
   "property": "C123",
   "status": "partial",
   "theorems": [
    "c123_stats_refuted",
    "c123_colours_refuted",
    "c123_flags_partial"
   ],
   "note": "Refuted as worded: --stats, --stats-json and --no-colours only test that a value was given. Proved for the other four."
  },
  {
   "property": "C124",
   "status": "proved",
   "theorems": [
    "c124_values_determined",
    "c124_next_state_determined"
   ],
   "note": "Uniqueness of the settled values; that a settled valuation exists is not part of the property (two drivers of one bit can contradict each other)."
  },
  {
   "property": "C125",
   "status": "partial",
   "theorems": [
    "c125_drives_refuted",
    "c125_index_refuted",
    "c125_constant_partial",
    "c125_legacy_partial",
    "c125_index_decides",
    "c125_plain_assignment"
   ],
   "note": "Refuted as worded: with resolved bits x[i] = a drives x[0] only and does not read i. Proved for constant targets (exact), and on the whole-expression path for non-blocking assignments."
  },
  {
   "property": "C126",
   "status": "partial",
   "theorems": [
    "c126_only_right_refuted",
    "c126_drives_nothing_partial",
    "c126_reads_right_partial"
   ],
   "note": "Refuted as worded: without resolved bits the target of force is recorded as read. Nothing is driven in either mode, and with resolved bits the reads are those of the right-hand side."
  },
  {
   "property": "C127",
   "status": "proved",
   "theorems": [
    "c127_same_connections",
    "c127_same_answers",
    "c127_output",
    "c127_register",
    "c127_values_determined"
   ],
   "note": "Threads interleave at the granularity of the graph operations that take a node lock, as in C46-C48."
  },
  {
   "property": "C128",
   "status": "proved",
   "theorems": [
    "c128_settles",
    "c128_unstable_reported",
    "c128_one_run",
    "c128_one_run_parallel"
   ],
   "note": "Existence of settled values by iterating rounds, uniqueness from C124; for designs of the class of C117 in which no bit is driven twice."
  },
  {
   "property": "C129",
   "status": "proved",
   "theorems": [
    "c129_edges_feed",
    "c129_cone_connected"
   ],
   "note": "A block counts as one piece: edges between nodes of one block are the subject of C70-C74. Blocks do not name port identifiers."
  },
  {
   "property": "C130",
   "status": "partial",
   "theorems": [
    "c130_two_blocks_refuted"
   ],
   "note": "Refuted as worded: a driver added to one half of a split interval shows up in the other half, here with three always blocks. With one block per bit it is C129."
  },
  {
   "property": "C131",
   "status": "proved",
   "theorems": [
    "c131_assignment_is_block",
    "c131_one_order",
    "c131_built",
    "c131_output",
    "c131_register",
    "c131_values_determined",
    "c131_one_run"
   ],
   "note": "Any list of assignments and blocks; the guarantees are those of C117, C124 and C128."
  },
  {
   "property": "C132",
   "status": "proved",
   "theorems": [
    "c132_build_succeeds"
   ],
   "note": "Bit indices below INT32_MAX; one driver for each bit; ranges that a block writes are equal or apart. That the C++ does not exhaust memory is outside the model."
  },
  {
   "property": "C133",
   "status": "proved",
   "theorems": [
    "c133_annotations_right"
   ],
   "note": "Within a block the annotation is only known to be read by the block: see C134."
  },
  {
   "property": "C134",
   "status": "partial",
   "theorems": [
    "c134_unassigned_refuted"
   ],
   "note": "Refuted as worded: when a definition covers part of a read, the edge gets the whole range that is read, so querying the drivers of a bit that nothing assigns finds one. C133 is what holds."
  },
  {
   "property": "C135",
   "status": "proved",
   "theorems": [
    "c135_events"
   ],
   "note": "Ports, continuous assignments, connections and registers as sources of clocks; clocks that come out of combinational blocks are covered by the first half only."
  },
  {
   "property": "C136",
   "status": "partial",
   "theorems": [
    "c136_event_lost_refuted"
   ],
   "note": "Refuted as worded: for always @(posedge clk or negedge clk) the second event reuses the edge of the first and overwrites its kind, so only negedge is reported; likewise for a clock and a reset that one assignment node drives. C135 is what holds."
  },
  {
   "property": "C137",
   "status": "partial",
   "theorems": [
    "c137_part_refuted"
   ],
   "note": "Refuted as worded: if the bits of the clock are registers of their own, the lookup by the whole range finds none of them and the driver map does not have them, so no clock is reported. C135 has the case that holds."
  },
  {
   "property": "C138",
   "status": "proved",
   "theorems": [
    "c138_drivers_exact",
    "c138_block_drivers"
   ],
   "note": "An unread bit has no edge and so no reported driver; the conditions of the converse are those of C114 (an edge keeps the annotation of one variable). With blocks only the first direction, as C134 shows a driver of an unassigned bit."
  },
  {
   "property": "C139",
   "status": "proved",
   "theorems": [
    "c139_one_driver"
   ],
   "note": "Stated for designs without blocks; with blocks a register and the assignments in its block are both named (example sq_drivers)."
  },
  {
   "property": "C140",
   "status": "partial",
   "theorems": [
    "c140_unresolved_refuted"
   ],
   "note": "Refuted as worded: each node of an output port becomes a driver of every bit of the actual, so two nodes are named for w[2] and w[3] of a two-bit output connected to w[3:2]. C139 is the case with bits resolved."
  },
  {
   "property": "C141",
   "status": "proved",
   "theorems": [
    "c141_cuts_known",
    "c141_visit_order",
    "c141_final",
    "c141_built",
    "c141_cone_determines",
    "c141_any_order_refuted",
    "c141_unresolved_refuted"
   ],
   "note": "c141_visit_order shows that the traversal of an instance tree has the order asked for if names are in scope. The two refuted theorems show that the order and the resolving of bits are both needed."
  },
  {
   "property": "C142",
   "status": "proved",
   "theorems": [
    "c142_visited",
    "c142_values",
    "c142_connections",
    "c142_expressions",
    "c142_static_refuted"
   ],
   "note": "That the analysis leaves initializers of static variables alone is a contract of slang; the refuted theorem shows that it is needed."
  },
  {
   "property": "C143",
   "status": "proved",
   "theorems": [
    "c143_resolved",
    "c143_tree",
    "c143_blocks"
   ],
   "note": "With procedural blocks (c143_blocks) edges are sound rather than exact, as in C129."
  },
  {
   "property": "C144",
   "status": "proved",
   "theorems": [
    "c144_flow_found",
    "c144_resolved"
   ],
   "note": ""
  },
  {
   "property": "C145",
   "status": "partial",
   "theorems": [
    "c145_wide_refuted",
    "c145_single_partial"
   ],
   "note": "Refuted as worded: a port of two bits whose actual is a plain two-bit wire is one node, so an input that drives only the bit that is not used is in the cone, whether cuts are propagated or not. Partial: with ports and assignments of one bit, an input is in the cone exactly if it flows to the output."
  }
 ]
}
