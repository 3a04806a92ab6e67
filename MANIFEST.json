{
 "claims": [
  {
   "property": "C01",
   "status": "proved",
   "theorems": [
    "C01_levelset_partition_order"
   ],
   "note": "needs levelPtr[0]=0 on entry: the code never writes that cell (all callers zero it)"
  },
  {
   "property": "C02",
   "status": "proved",
   "theorems": [
    "C02_level_is_longest_chain"
   ],
   "note": ""
  },
  {
   "property": "C03",
   "status": "proved",
   "theorems": [
    "C03_failure_code_meaning"
   ],
   "note": ""
  },
  {
   "property": "C04",
   "status": "proved",
   "theorems": [
    "C04_variants_agree",
    "C04_computingLevelSet",
    "C04_node2level",
    "C04_queue_variant"
   ],
   "note": ""
  },
  {
   "property": "C06",
   "status": "proved",
   "theorems": [
    "C06_components_any_interleaving"
   ],
   "note": "interleaving semantics: int loads/stores are atomic and sequentially consistent (the C++ data race itself is in the trusted base)"
  },
  {
   "property": "C07",
   "status": "proved",
   "theorems": [
    "C07_components_terminate"
   ],
   "note": "same interleaving semantics as C06"
  },
  {
   "property": "C08",
   "status": "proved",
   "theorems": [
    "C08_components_deterministic"
   ],
   "note": "same interleaving semantics as C06"
  },
  {
   "property": "C05",
   "status": "proved",
   "theorems": [
    "C05_post_order_topological"
   ],
   "note": "the stray read of stack.back() on an empty vector is modelled as an unspecified, unused value; see C48"
  },
  {
   "property": "C48",
   "status": "proved",
   "theorems": [
    "C48_post_order_reads_empty_stack"
   ],
   "note": "a defect: the strict model always fails on non-empty input"
  },
  {
   "property": "C09",
   "status": "proved",
   "theorems": [
    "C09_schedule_components_valid"
   ],
   "note": "computeSchedule modelled in full, one execution order of parallel_cc's result (its labels are schedule independent by C08)."
  },
  {
   "property": "C10",
   "status": "proved",
   "theorems": [
    "C10_schedule_packed_ids_valid",
    "C10_schedule_packed_ids_parts"
   ],
   "note": ""
  },
  {
   "property": "C11",
   "status": "proved",
   "theorems": [
    "C11_schedule_packed_post_order_valid"
   ],
   "note": "holds for every value returned by the stray empty-stack read of the post order (C48)"
  },
  {
   "property": "C12",
   "status": "proved",
   "theorems": [
    "C12_window_search"
   ],
   "note": "two or more cores: any costs and rounding; one core: positive costs (C51 shows zero costs fail)"
  },
  {
   "property": "C13",
   "status": "proved",
   "theorems": [
    "C13_chunks_cover"
   ],
   "note": "costs are naturals; rounding of the share is a parameter constrained by rounding_ok"
  },
  {
   "property": "C14",
   "status": "proved",
   "theorems": [
    "C14_HDAGG_valid",
    "C14_HDAGG_valid_lower",
    "C14_HDAGG_parts"
   ],
   "note": "divergence test is an arbitrary oracle; parallelLevelset=false"
  },
  {
   "property": "C15",
   "status": "proved",
   "theorems": [
    "C15_zero_costs_refuted"
   ],
   "note": "the property is that validity fails for zero costs: a 6-node witness"
  },
  {
   "property": "C16",
   "status": "proved",
   "theorems": [
    "C16_GLC_V2_valid"
   ],
   "note": "same oracles as C14"
  },
  {
   "property": "C17",
   "status": "proved",
   "theorems": [
    "C17_chain_throws"
   ],
   "note": ""
  },
  {
   "property": "C18",
   "status": "proved",
   "theorems": [
    "C18_build_coarsened_valid"
   ],
   "note": ""
  },
  {
   "property": "C49",
   "status": "proved",
   "theorems": [
    "C49_incremental_components_any_interleaving"
   ],
   "note": "same interleaving semantics as C06"
  },
  {
   "property": "C50",
   "status": "proved",
   "theorems": [
    "C50_debug_assertion_refuted"
   ],
   "note": "a defect: 6-node witness"
  },
  {
   "property": "C51",
   "status": "proved",
   "theorems": [
    "C51_one_core_zero_costs_out_of_bounds"
   ],
   "note": "a defect: universal failure theorem"
  },
  {
   "property": "C28",
   "status": "proved",
   "theorems": [
    "C28_levelset_solve_serial",
    "C28_levelset_seq_serial"
   ],
   "note": "abstract value type and operations; one machine thread per iteration; also deadlock freedom and termination"
  },
  {
   "property": "C29",
   "status": "proved",
   "theorems": [
    "C29_lbc_solve_serial",
    "C29_lbc_seq_serial"
   ],
   "note": "as C28"
  },
  {
   "property": "C30",
   "status": "proved",
   "theorems": [
    "C30_solve_race_free",
    "C30_levelset_race_free"
   ],
   "note": "also for the grouped solvers, in the C31 theorems; C30_case_race shows an invalid schedule that races"
  },
  {
   "property": "C31",
   "status": "proved",
   "theorems": [
    "C31_group_lbc_solve_serial",
    "C31_group_levelset_solve_serial"
   ],
   "note": ""
  },
  {
   "property": "C33",
   "status": "proved",
   "theorems": [
    "C33_csc_to_csr_exact",
    "C33_roundtrip",
    "C33_csc_to_csr_matrix"
   ],
   "note": "lists of (index,value) per row/column, so order and multiplicity are included"
  },
  {
   "property": "C34",
   "status": "proved",
   "theorems": [
    "C34_make_half_exact",
    "C34_make_full_exact"
   ],
   "note": "n > 0; make_half marks the result stype -1 for the upper half too"
  },
  {
   "property": "C35",
   "status": "proved",
   "theorems": [
    "C35_inv_perm_inverts",
    "C35_reorder_array_inverse"
   ],
   "note": ""
  },
  {
   "property": "C52",
   "status": "proved",
   "theorems": [
    "C52_transpose_exact"
   ],
   "note": ""
  },
  {
   "property": "C53",
   "status": "proved",
   "theorems": [
    "C53_permute_general_exact"
   ],
   "note": ""
  },
  {
   "property": "C54",
   "status": "proved",
   "theorems": [
    "C54_csr_to_csc_square",
    "C54_csr_to_csc_nonsquare_refuted"
   ],
   "note": "a defect for non-square matrices"
  },
  {
   "property": "C55",
   "status": "proved",
   "theorems": [
    "C55_copy_from_to_keeps_pointers",
    "C55_copy_from_to_refuted"
   ],
   "note": "a defect"
  },
  {
   "property": "C56",
   "status": "proved",
   "theorems": [
    "C56_tridiag_exact",
    "C56_tridiag_one_refuted"
   ],
   "note": "n = 1 is a defect"
  },
  {
   "property": "C57",
   "status": "proved",
   "theorems": [
    "C57_csc_to_csr_no_rows_refuted"
   ],
   "note": "a defect: universal failure theorem"
  },
  {
   "property": "C19",
   "status": "proved",
   "theorems": [
    "C19_group_dag_exact"
   ],
   "note": "the parallel loop over groups is modelled sequentially: each iteration writes its own column only"
  },
  {
   "property": "C20",
   "status": "proved",
   "theorems": [
    "C20_tree_grouping",
    "C20_tree_grouping_bfs"
   ],
   "note": "vectors of the exact size (the code copies them whole), n > 0 (C20_no_nodes_out_of_bounds: n = 0 reads an empty vector); the size restriction is a parameter > 0; also for the BFS variant"
  },
  {
   "property": "C21",
   "status": "proved",
   "theorems": [
    "C21_tree_quotient_acyclic"
   ],
   "note": "for any size restriction and both variants"
  },
  {
   "property": "C22",
   "status": "proved",
   "theorems": [
    "C22_group_dag_triangular_refuted"
   ],
   "note": "a defect: 4-node witness"
  },
  {
   "property": "C23",
   "status": "proved",
   "theorems": [
    "C23_chain_grouping"
   ],
   "note": "also: no other edge into the next member, groups numbered by smallest member, quotient acyclic"
  },
  {
   "property": "C24",
   "status": "proved",
   "theorems": [
    "C24_ungroup_sorted",
    "C24_ungroup_post",
    "C24_ungroup_plain",
    "C24_ungroup_throws",
    "C24_tree_groups_unordered_refuted",
    "C24_chain_groups_ordered"
   ],
   "note": "id order, post order and no reordering; the refuted theorem is that tree groups list their members in dependence order"
  },
  {
   "property": "C47",
   "status": "proved",
   "theorems": [
    "C47_final_schedule_dag"
   ],
   "note": "groups are the non-empty parts; the graph is lower triangular when the schedule's levels respect the dependences"
  },
  {
   "property": "C25",
   "status": "proved",
   "theorems": [
    "C25_sparsification_clique",
    "C25_sparsification_slow",
    "C25_schedule_transfers"
   ],
   "note": "any number of threads and any interleaving of the racing label stores (stores atomic); sorted columns only needed by the slow branch; also: no edge beside a two-edge path remains, and schedules transfer to the original graph"
  },
  {
   "property": "C26",
   "status": "proved",
   "theorems": [
    "C26_serial_build_out_of_bounds"
   ],
   "note": "a defect: universal failure theorem"
  },
  {
   "property": "C58",
   "status": "proved",
   "theorems": [
    "C58_labels_race",
    "C58_result_varies"
   ],
   "note": "a defect; correctness for all interleavings is C25"
  },
  {
   "property": "C59",
   "status": "proved",
   "theorems": [
    "C59_stale_output_vectors",
    "C59_second_call_refuted"
   ],
   "note": "a defect / undocumented precondition"
  },
  {
   "property": "C27",
   "status": "proved",
   "theorems": [
    "C27_node_costs",
    "C27_group_costs_are_sums",
    "C27_ilu0_refuted",
    "C27_costs_positive"
   ],
   "note": "SpILU0_UL: the break compares a node with a position; it never fires when no row is empty (then the sum theorem holds for it too), and it loses costs otherwise; also conservation of the total"
  },
  {
   "property": "C60",
   "status": "proved",
   "theorems": [
    "C60_empty_cost_out_of_bounds"
   ],
   "note": "a defect"
  },
  {
   "property": "C32",
   "status": "proved",
   "theorems": [
    "C32_hdagg_end_to_end"
   ],
   "note": "from the column arrays: csc_to_csr, cost, HDAGG, sptrsv_csr_lbc; rounding_ok is the only floating-point assumption"
  },
  {
   "property": "C61",
   "status": "proved",
   "theorems": [
    "C61_wavefront_end_to_end"
   ],
   "note": ""
  },
  {
   "property": "C62",
   "status": "proved",
   "theorems": [
    "C62_chain_not_solved",
    "C62_wavefront_refuted"
   ],
   "note": "a defect: silent wrong answer"
  },
  {
   "property": "C63",
   "status": "proved",
   "theorems": [
    "C63_tree_hdagg_end_to_end",
    "C63_diamond_throws_refuted"
   ],
   "note": "isLfactor = false; with OpenMP (without it see C26)"
  },
  {
   "property": "C64",
   "status": "proved",
   "theorems": [
    "C64_tree_wavefront_end_to_end",
    "C64_diamond_not_solved_refuted"
   ],
   "note": ""
  },
  {
   "property": "C37",
   "status": "proved",
   "theorems": [
    "C37_post_order",
    "C37_forest",
    "larger_parents_rooted",
    "C37_cycle_refuted"
   ],
   "note": "any parent array, also with cycles"
  },
  {
   "property": "C38",
   "status": "proved",
   "theorems": [
    "C38_children",
    "C38_stale_counters_refuted",
    "C38_tree_to_csc",
    "C38_forest_nnz_refuted"
   ],
   "note": ""
  },
  {
   "property": "C45",
   "status": "proved",
   "theorems": [
    "C45_mult_size_t",
    "C45_add_size_t",
    "C45_mult_zero_on_overflow_refuted"
   ],
   "note": ""
  },
  {
   "property": "C46",
   "status": "proved",
   "theorems": [
    "C46_weight_boundaries",
    "C46_weight_covers",
    "C46_even_share_covers",
    "C46_weight_covers_refuted",
    "C46_bfs_partition",
    "C46_bfs_no_parts"
   ],
   "note": "boundaries and BFS for any weight type with any addition and comparison (so any rounding); coverage by weight for whole numbers"
  },
  {
   "property": "C65",
   "status": "proved",
   "theorems": [
    "C65_reordered_tree"
   ],
   "note": ""
  },
  {
   "property": "C66",
   "status": "proved",
   "theorems": [
    "C66_node_depth",
    "C66_heights",
    "C66_efficient_weighted_refuted"
   ],
   "note": "weights modelled as non-negative whole numbers"
  },
  {
   "property": "C67",
   "status": "proved",
   "theorems": [
    "C67_subtree_cost",
    "C67_any_order_refuted",
    "C67_node_zero"
   ],
   "note": "whole-number weights"
  },
  {
   "property": "C36",
   "status": "proved",
   "theorems": [
    "C36_computeParents",
    "C36_compute_etree_sym",
    "C36_same_tree",
    "C36_compute_etree_unsym",
    "C36_forest",
    "C36_duplicates_refuted",
    "C36_few_rows_out_of_bounds",
    "C36_lower_refused"
   ],
   "note": "specification: first off-diagonal entry of each column of the symbolic Cholesky closure"
  },
  {
   "property": "C68",
   "status": "proved",
   "theorems": [
    "C68_buildETree",
    "C68_covers_dependences",
    "C68_entries_ordered"
   ],
   "note": ""
  },
  {
   "property": "C69",
   "status": "proved",
   "theorems": [
    "C69_row_pattern",
    "C69_stale_refuted",
    "C69_stale_out_of_bounds"
   ],
   "note": ""
  },
  {
   "property": "C70",
   "status": "proved",
   "theorems": [
    "C70_grouped_hdagg_end_to_end",
    "C70_arrow_throws_refuted"
   ],
   "note": "size restriction (computed in floating point) is any number >= 1; with OpenMP for the sparsified variant (without it see C26)"
  },
  {
   "property": "C39",
   "status": "proved",
   "theorems": [
    "C39_csc_runs",
    "C39_csr_runs",
    "C39_blocks",
    "C39_block_zero_divides",
    "C39_runs_partition",
    "C39_csr_chains",
    "C39_csc_chains"
   ],
   "note": "work arrays of class group as the constructor leaves them; with sorted rows/columns runs are maximal"
  },
  {
   "property": "C71",
   "status": "proved",
   "theorems": [
    "C71_group_graph"
   ],
   "note": ""
  },
  {
   "property": "C72",
   "status": "proved",
   "theorems": [
    "C72_grouping_end_to_end"
   ],
   "note": ""
  },
  {
   "property": "C40",
   "status": "proved",
   "theorems": [
    "C40_sptrsv_v2_out_of_bounds",
    "C40_cn_grouping_out_of_bounds",
    "C40_spico_v2_out_of_bounds"
   ],
   "note": "failure theorems: the model run ends in the out-of-bounds outcome for every input described"
  },
  {
   "property": "C42",
   "status": "proved",
   "theorems": [
    "C42_bin_pack",
    "C42_no_bins",
    "C42_balance",
    "C42_large_costs_refuted"
   ],
   "note": "balance for exact (whole number) costs"
  },
  {
   "property": "C43",
   "status": "proved",
   "theorems": [
    "C43_cuts",
    "C43_no_step",
    "C43_no_levels"
   ],
   "note": ""
  },
  {
   "property": "C44",
   "status": "proved",
   "theorems": [
    "C44_lbc_valid",
    "C44_chain_throws",
    "C44_empty_oob",
    "C44_no_step_oob",
    "C44_config_oob",
    "C44_no_parts_divides"
   ],
   "note": "the sequential version; std::sort is any permutation"
  },
  {
   "property": "C73",
   "status": "proved",
   "theorems": [
    "C73_balance_refuted"
   ],
   "note": "refutation"
  },
  {
   "property": "C74",
   "status": "proved",
   "theorems": [
    "C74_lbc_dag_end_to_end",
    "C74_chain_throws",
    "C74_config_oob"
   ],
   "note": "costs in any arithmetic"
  },
  {
   "property": "C75",
   "status": "proved",
   "theorems": [
    "C75_grouping_lbc_end_to_end",
    "C75_group_cost",
    "C75_group_cost_refuted"
   ],
   "note": ""
  },
  {
   "property": "C76",
   "status": "proved",
   "theorems": [
    "C76_parallel_valid",
    "C76_order_refuted",
    "C76_no_packing_refuted",
    "C76_chain_throws"
   ],
   "note": "threads run one after the other in the model: they share only read-only arrays and write different cells; interleavings inside parallel_cc are those of C06-C08"
  },
  {
   "property": "C41",
   "status": "proved",
   "theorems": [
    "C41_csc_supernodes",
    "C41_csr_supernodes",
    "C41_bcsc_supernodes",
    "C41_bcsc_upper",
    "C41_bcsc_limit_refuted",
    "C41_csc_dense_block",
    "C41_csr_dense_block",
    "C41_upper_dense_block"
   ],
   "note": "no column (row) may be empty in class SuperNodal: its assertions"
  },
  {
   "property": "C77",
   "status": "proved",
   "theorems": [
    "C77_dependence_graph",
    "C77_null_rows"
   ],
   "note": ""
  },
  {
   "property": "C78",
   "status": "proved",
   "theorems": [
    "C78_format_exact",
    "C78_detected_format",
    "C78_unsorted_refuted",
    "C78_missing_diagonal_out_of_bounds"
   ],
   "note": "zero is the default of the value type"
  },
  {
   "property": "C79",
   "status": "proved",
   "theorems": [
    "C79_compressed_out_of_bounds"
   ],
   "note": "a defect: universal failure theorem"
  },
  {
   "property": "C80",
   "status": "proved",
   "theorems": [
    "C80_tree_levels",
    "C80_small_out_of_bounds",
    "C80_tree_levels_rounds"
   ],
   "note": ""
  },
  {
   "property": "C81",
   "status": "proved",
   "theorems": [
    "C81_splitting"
   ],
   "note": ""
  },
  {
   "property": "C82",
   "status": "proved",
   "theorems": [
    "C82_three_levels_out_of_bounds",
    "C82_two_levels",
    "C82_valid",
    "C82_part_array_refuted",
    "C82_small_out_of_bounds"
   ],
   "note": "std::sort is any permutation; the stray reads are a parameter of the model"
  },
  {
   "property": "C83",
   "status": "proved",
   "theorems": [
    "C83_transpose_symmetric",
    "C83_permuted",
    "C83_reorder",
    "C83_bad_permutation",
    "C83_permutation_check_refuted",
    "C83_refused",
    "C83_empty_out_of_bounds"
   ],
   "note": "a pattern matrix gives a matrix flagged as having values, with its freshly allocated (zero) value array"
  },
  {
   "property": "C84",
   "status": "proved",
   "theorems": [
    "C84_add",
    "C84_add_refused",
    "C84_add_flag_refuted",
    "C84_make_symmetric_same",
    "C84_make_symmetric_other",
    "C84_make_symmetric_general"
   ],
   "note": "arithmetic is any pair of functions; sums are taken in the order of the code"
  },
  {
   "property": "C85",
   "status": "proved",
   "theorems": [
    "C85_elimination_tree",
    "C85_three_levels_out_of_bounds",
    "C85_valid",
    "C85_two_levels",
    "C85_double_delete",
    "C85_one_row_out_of_bounds",
    "C85_end_to_end"
   ],
   "note": "the double delete is reported as an out-of-bounds error in the model; stray reads are a parameter as in C82"
  },
  {
   "property": "C86",
   "status": "proved",
   "theorems": [
    "C86_counts",
    "C86_refused"
   ],
   "note": "the flop count in doubles is not modelled"
  },
  {
   "property": "C87",
   "status": "proved",
   "theorems": [
    "C87_ereach"
   ],
   "note": ""
  },
  {
   "property": "C88",
   "status": "proved",
   "theorems": [
    "C88_pattern"
   ],
   "note": "the sums of sizes in doubles are modelled as exact integers"
  },
  {
   "property": "C89",
   "status": "proved",
   "theorems": [
    "C89_symbolic",
    "C89_refused",
    "C89_upper_out_of_bounds"
   ],
   "note": "METIS is any permutation; leaks are not modelled"
  },
  {
   "property": "C90",
   "status": "proved",
   "theorems": [
    "C90_read_mtx",
    "C90_read_mtx_short",
    "C90_read_mtx_pattern",
    "C90_read_mtx_overrun",
    "C90_read_mtx_no_columns",
    "C90_read_mtx_unsorted_refuted"
   ],
   "note": "the banner and the size line (mmio) are not modelled; a non-integer literal read by %d is outside the model"
  },
  {
   "property": "C91",
   "status": "proved",
   "theorems": [
    "C91_read_mtx_csc_real",
    "C91_read_mtx_csc_pattern",
    "C91_insert_diag_truncates",
    "C91_read_mtx_csc_short",
    "C91_read_mtx_csc_bad_column",
    "C91_pattern_rows",
    "C91_pattern_truncates",
    "C91_pattern_short",
    "C91_pattern_bad_column"
   ],
   "note": ""
  },
  {
   "property": "C92",
   "status": "proved",
   "theorems": [
    "C92_dense_to_csc",
    "C92_dense_to_csc_no_columns"
   ],
   "note": ""
  },
  {
   "property": "C93",
   "status": "proved",
   "theorems": [
    "C93_one_based",
    "C93_values_lost"
   ],
   "note": ""
  },
  {
   "property": "C94",
   "status": "proved",
   "theorems": [
    "C94_round_trip",
    "C94_round_trip_reserved",
    "C94_round_trip_real"
   ],
   "note": "printing with %10.3g and reading back is one arbitrary function on values"
  },
  {
   "property": "C95",
   "status": "proved",
   "theorems": [
    "C95_header_ok",
    "C95_header_no_size",
    "C95_header_hangs"
   ],
   "note": "trim and word splitting are parameters; only idempotence of trim is used"
  },
  {
   "property": "C96",
   "status": "proved",
   "theorems": [
    "C96_multi_levels",
    "C96_multi_shift",
    "C96_no_copies"
   ],
   "note": ""
  },
  {
   "property": "C97",
   "status": "proved",
   "theorems": [
    "C97_csc_valid",
    "C97_csc_unpacked",
    "C97_empty_oob",
    "C97_single_oob",
    "C97_no_edges_oob",
    "C97_two_chain_oob",
    "C97_csc_refuted",
    "C97_no_parts_divides"
   ],
   "note": "the averages printed or kept at the end are not modelled except their division by the number of levels"
  },
  {
   "property": "C98",
   "status": "proved",
   "theorems": [
    "C98_merge_graph",
    "C98_merge_DAGs",
    "C98_no_graphs",
    "C98_levels_of_merged"
   ],
   "note": ""
  },
  {
   "property": "C99",
   "status": "proved",
   "theorems": [
    "C99_coarsen",
    "C99_no_group",
    "C99_empty"
   ],
   "note": ""
  },
  {
   "property": "C100",
   "status": "proved",
   "theorems": [
    "C100_general_graph",
    "C100_valid_iff_symmetric",
    "C100_perm_general",
    "C100_partition_general",
    "C100_perm_result",
    "C100_partition_result"
   ],
   "note": "METIS is a parameter; it is only assumed to answer correctly on graphs that meet its preconditions"
  },
  {
   "property": "C101",
   "status": "proved",
   "theorems": [
    "C101_symmetric_graph",
    "C101_never_valid",
    "C101_no_diagonal_refuted",
    "C101_no_diagonal",
    "C101_few_entries"
   ],
   "note": ""
  },
  {
   "property": "C102",
   "status": "proved",
   "theorems": [
    "C102_coarsened",
    "C102_factor_one",
    "C102_wrong_node",
    "C102_coarsened_refuted"
   ],
   "note": "for a matrix not marked as a lower triangle (stype >= 0)"
  },
  {
   "property": "C103",
   "status": "proved",
   "theorems": [
    "C103_block_levels_out_of_bounds",
    "C103_block_levels_by_depth"
   ],
   "note": "the memory behind the array is a parameter; empty in the first theorem"
  },
  {
   "property": "C104",
   "status": "proved",
   "theorems": [
    "C104_blocked_coarsening_out_of_bounds"
   ],
   "note": ""
  },
  {
   "property": "C105",
   "status": "proved",
   "theorems": [
    "C105_blocked_schedule",
    "C105_forest_condition",
    "C105_factor_condition",
    "C105_any_blocks_refuted",
    "C105_any_blocks_total_refuted"
   ],
   "note": "with the memory behind the degree array as a parameter"
  },
  {
   "property": "C106",
   "status": "proved",
   "theorems": [
    "C106_tiles",
    "C106_every_entry_once"
   ],
   "note": ""
  },
  {
   "property": "C107",
   "status": "proved",
   "theorems": [
    "C107_part_same_result",
    "C107_solve",
    "C107_upper_entry_refuted",
    "C107_unsorted_row_refuted"
   ],
   "note": "the arithmetic is a parameter"
  },
  {
   "property": "C108",
   "status": "proved",
   "theorems": [
    "C108_supernode_schedule",
    "C108_supernode_solve",
    "C108_any_groups",
    "C108_split_supernode_refuted"
   ],
   "note": ""
  },
  {
   "property": "C109",
   "status": "proved",
   "theorems": [
    "C109_group_dag"
   ],
   "note": ""
  },
  {
   "property": "C110",
   "status": "proved",
   "theorems": [
    "C110_two_cycles_reported",
    "C110_longer_cycles_missed"
   ],
   "note": "the printed pairs are the result of the model"
  },
  {
   "property": "C111",
   "status": "proved",
   "theorems": [
    "C111_supernode_average",
    "C111_blocks_exact",
    "C111_empty_column_oob",
    "C111_empty_column_refuted"
   ],
   "note": "the average is returned as the pair numerator, denominator"
  },
  {
   "property": "C112",
   "status": "proved",
   "theorems": [
    "C112_order_and_groups",
    "C112_reads_behind_vector"
   ],
   "note": "the values of the two stray reads are parameters"
  },
  {
   "property": "C113",
   "status": "proved",
   "theorems": [
    "C113_compute_depth",
    "C113_single_chain_untouched"
   ],
   "note": ""
  },
  {
   "property": "C114",
   "status": "proved",
   "theorems": [
    "C114_solve_counts"
   ],
   "note": ""
  },
  {
   "property": "C115",
   "status": "proved",
   "theorems": [
    "C115_lbc_balance",
    "C115_levelset_balance",
    "C115_group_lbc_balance",
    "C115_without_openmp_out_of_bounds"
   ],
   "note": "counters are unbounded; the thread of an iteration is a parameter"
  },
  {
   "property": "C116",
   "status": "proved",
   "theorems": [
    "C116_block_levels",
    "C116_cover",
    "C116_block_graph_levels",
    "C116_found_lower",
    "C116_found_upper",
    "C116_cover_needed_refuted",
    "C116_no_copies_refuted"
   ],
   "note": "for K > 1 no column may have 16843008 entries or more (the degrees of copies start at the value memset writes)"
  },
  {
   "property": "C117",
   "status": "proved",
   "theorems": [
    "C117_found",
    "C117_absent_refuted",
    "C117_descending_refuted",
    "C117_blocks"
   ],
   "note": ""
  },
  {
   "property": "C118",
   "status": "proved",
   "theorems": [
    "C118_fused_levels",
    "C118_lost_block_refuted",
    "C118_lost_blocks"
   ],
   "note": ""
  },
  {
   "property": "C119",
   "status": "proved",
   "theorems": [
    "C119_merged_graph",
    "C119_lost_edge_refuted"
   ],
   "note": ""
  },
  {
   "property": "C120",
   "status": "proved",
   "theorems": [
    "C120_vectors",
    "C120_value",
    "C120_matrices",
    "C120_nan_refuted"
   ],
   "note": ""
  },
  {
   "property": "C121",
   "status": "proved",
   "theorems": [
    "C121_unique"
   ],
   "note": "asserts as in a debug build; an entry out of range fails them"
  },
  {
   "property": "C122",
   "status": "proved",
   "theorems": [
    "C122_random_matrix",
    "C122_too_large",
    "C122_empty_refuted"
   ],
   "note": "the conversion of density*n+1 to int is a parameter"
  },
  {
   "property": "C123",
   "status": "proved",
   "theorems": [
    "C123_row_sums",
    "C123_row_sums_blocked",
    "C123_solution_is_ones",
    "C123_inexact_refuted"
   ],
   "note": ""
  },
  {
   "property": "C124",
   "status": "proved",
   "theorems": [
    "C124_median",
    "C124_timer",
    "C124_restart_refuted"
   ],
   "note": "times are integers"
  },
  {
   "property": "C125",
   "status": "proved",
   "theorems": [
    "C125_dir_ext",
    "C125_dir",
    "C125_ext",
    "C125_plain",
    "C125_all_forms"
   ],
   "note": ""
  },
  {
   "property": "C126",
   "status": "proved",
   "theorems": [
    "C126_empty_columns",
    "C126_nnz_per_column",
    "C126_diagonal_first",
    "C126_diagonal_positions",
    "C126_copy",
    "C126_residual",
    "C126_norm",
    "C126_empty_last_column_refuted",
    "C126_nan_refuted",
    "C126_empty_last_column",
    "C126_nan"
   ],
   "note": ""
  },
  {
   "property": "C127",
   "status": "proved",
   "theorems": [
    "C127_groups",
    "C127_group_matrix"
   ],
   "note": "the unordered candidate pool is a list without repetitions; only its minimum is used"
  },
  {
   "property": "C128",
   "status": "proved",
   "theorems": [
    "C128_merged",
    "C128_all_lost",
    "C128_one_group"
   ],
   "note": "the comparison with the double threshold is a downward closed predicate"
  },
  {
   "property": "C129",
   "status": "proved",
   "theorems": [
    "C129_singletons",
    "C129_out_of_bounds"
   ],
   "note": ""
  },
  {
   "property": "C130",
   "status": "proved",
   "theorems": [
    "C130_inspector",
    "C130_edges"
   ],
   "note": ""
  },
  {
   "property": "C131",
   "status": "proved",
   "theorems": [
    "C131_statistic",
    "C131_true_spread",
    "C131_total_weight",
    "C131_single_part_refuted",
    "C131_cut_off"
   ],
   "note": "costs are naturals; the quotient is a numerator and a denominator"
  },
  {
   "property": "C132",
   "status": "proved",
   "theorems": [
    "C132_out_of_bounds",
    "C132_tree_hdagg"
   ],
   "note": ""
  },
  {
   "property": "C133",
   "status": "proved",
   "theorems": [
    "C133_potential_gain",
    "C133_gain_bounds",
    "C133_negative_refuted",
    "C133_metrics"
   ],
   "note": "the gain is a rational number"
  },
  {
   "property": "C134",
   "status": "proved",
   "theorems": [
    "C134_characteristics"
   ],
   "note": ""
  },
  {
   "property": "C135",
   "status": "proved",
   "theorems": [
    "C135_average_size",
    "C135_ratio",
    "C135_at_most_one",
    "C135_empty_part_refuted"
   ],
   "note": ""
  },
  {
   "property": "C136",
   "status": "proved",
   "theorems": [
    "C136_evaluate",
    "C136_no_tests",
    "C136_serial_solution",
    "C136_parallel_solution"
   ],
   "note": "the virtual functions are parameters; without PROFILE"
  },
  {
   "property": "C137",
   "status": "proved",
   "theorems": [
    "C137_new_file",
    "C137_reopened",
    "C137_log_unique",
    "C137_round_trip",
    "C137_comma_refuted",
    "C137_duplicate_names",
    "C137_no_columns",
    "C137_duplicate_names_any"
   ],
   "note": "strings are lists of character codes; the conversion of a value to a string is a parameter"
  },
  {
   "property": "C138",
   "status": "proved",
   "theorems": [
    "C138_reordered",
    "C138_lower",
    "C138_generated"
   ],
   "note": "METIS_NodeND is any function that returns a permutation for the graphs METIS accepts; built with METIS"
  },
  {
   "property": "C139",
   "status": "proved",
   "theorems": [
    "C139_ic0_serial",
    "C139_ic0_exact"
   ],
   "note": "square root, division and a -= b*c are arbitrary functions; exactness is a hypothesis of the second theorem only"
  },
  {
   "property": "C140",
   "status": "proved",
   "theorems": [
    "C140_ic_levelset",
    "C140_ic_lbc",
    "C140_ic_group_lbc",
    "C140_ic_group_levelset"
   ],
   "note": "interleaving semantics: one access to Lx per step, an omp atomic update is one step"
  },
  {
   "property": "C141",
   "status": "proved",
   "theorems": [
    "C141_rounding_refuted"
   ],
   "note": "refutation"
  },
  {
   "property": "C142",
   "status": "proved",
   "theorems": [
    "C142_csr_never_subtracts",
    "C142_csr_factor_refuted"
   ],
   "note": "the assertion in line 11 is not modelled"
  },
  {
   "property": "C143",
   "status": "proved",
   "theorems": [
    "C143_ic0_stat",
    "C143_terms_exist"
   ],
   "note": "counters are natural numbers (int overflow not modelled)"
  },
  {
   "property": "C144",
   "status": "proved",
   "theorems": [
    "C144_ic_wavefront",
    "C144_ic_chain_untouched",
    "C144_ic_wavefront_refuted"
   ],
   "note": "composition of C01-C04 with C140; factor_ may have fewer entries than L"
  },
  {
   "property": "C145",
   "status": "proved",
   "theorems": [
    "C145_ic_lbc_end_to_end"
   ],
   "note": "composition of C44 with C140"
  },
  {
   "property": "C146",
   "status": "proved",
   "theorems": [
    "C146_ic_grouping_end_to_end",
    "C146_ic_grouping_lbc_end_to_end",
    "C146_group_cost"
   ],
   "note": "composition of C39, C130, C04, C44 with C140"
  },
  {
   "property": "C147",
   "status": "proved",
   "theorems": [
    "C147_dense_general",
    "C147_dense_symmetric",
    "C147_not_square_refuted"
   ],
   "note": "zero is the default value; the non-square case is refuted"
  },
  {
   "property": "C148",
   "status": "proved",
   "theorems": [
    "C148_written_blocks",
    "C148_written_detected"
   ],
   "note": "composition with C78; the lines are triples, their printing to three digits is any rounding"
  },
  {
   "property": "C149",
   "status": "proved",
   "theorems": [
    "C149_array_total",
    "C149_array_rejects",
    "C149_array_matrix",
    "C149_symmetric_array_refuted"
   ],
   "note": "the model starts behind the header; sizes are not negative"
  },
  {
   "property": "C150",
   "status": "proved",
   "theorems": [
    "C150_trim",
    "C150_trim_unique",
    "C150_trim_idempotent"
   ],
   "note": "isspace of the C locale on characters 0-255; negative char values are not modelled"
  },
  {
   "property": "C151",
   "status": "proved",
   "theorems": [
    "C151_read_string",
    "C151_block_exists"
   ],
   "note": "a stream is its list of lines and its eof and fail bits"
  },
  {
   "property": "C152",
   "status": "proved",
   "theorems": [
    "C152_copy_sparse",
    "C152_pattern_out_of_bounds",
    "C152_empty_out_of_bounds"
   ],
   "note": ""
  },
  {
   "property": "C153",
   "status": "proved",
   "theorems": [
    "C153_values",
    "C153_general_pattern",
    "C153_pattern",
    "C153_pattern_refuted"
   ],
   "note": "METIS is a parameter that answers valid graphs correctly; composition of C100, C152"
  },
  {
   "property": "C154",
   "status": "proved",
   "theorems": [
    "C154_average_size",
    "C154_ratio",
    "C154_negative_ratio",
    "C154_empty_part_out_of_bounds"
   ],
   "note": "quotients are modelled by numerator and denominator"
  },
  {
   "property": "C155",
   "status": "proved",
   "theorems": [
    "C155_clusters",
    "C155_same_nodes",
    "C155_costs_out_of_bounds",
    "C155_threshold_out_of_bounds"
   ],
   "note": "costs are integers without overflow"
  },
  {
   "property": "C156",
   "status": "proved",
   "theorems": [
    "C156_csr_levelset",
    "C156_csr_lbc",
    "C156_row_operations",
    "C156_one_thread"
   ],
   "note": "with C142: the same result as the serial kernel"
  },
  {
   "property": "C157",
   "status": "proved",
   "theorems": [
    "C157_banner",
    "C157_long_word_out_of_bounds",
    "C157_all_files",
    "C157_banner_roundtrip",
    "C157_unknown_type",
    "C157_valid"
   ],
   "note": "files are lists of characters"
  },
  {
   "property": "C158",
   "status": "proved",
   "theorems": [
    "C158_sizes",
    "C158_blank_line",
    "C158_only_comments",
    "C158_never_returns",
    "C158_ints_short",
    "C158_crd_size_roundtrip",
    "C158_array_size_roundtrip",
    "C158_wrong_sizes_refuted",
    "C158_entry_as_sizes",
    "C158_long_comment"
   ],
   "note": "the last loop of the readers is bounded by fuel; that it does not end is proved as: for every fuel it runs out"
  },
  {
   "property": "C159",
   "status": "proved",
   "theorems": [
    "C159_roundtrip",
    "C159_truncated",
    "C159_unsymmetric",
    "C159_not_allowed",
    "C159_integer_not_read",
    "C159_integer_not_written",
    "C159_entry",
    "C159_entry_code",
    "C159_no_header"
   ],
   "note": "reading and printing of doubles are parameters that agree up to a rounding function"
  },
  {
   "property": "C160",
   "status": "proved",
   "theorems": [
    "C160_given_graph",
    "C160_levels",
    "C160_lbc",
    "C160_group_lbc",
    "C160_print",
    "C160_print_order"
   ],
   "note": "quotients are kept as numerator and denominator; composition of C39, C109, C04, C114, C115"
  },
  {
   "property": "C161",
   "status": "proved",
   "theorems": [
    "C161_ranges",
    "C161_average"
   ],
   "note": ""
  },
  {
   "property": "C162",
   "status": "proved",
   "theorems": [
    "C162_measured",
    "C162_failed_run",
    "C162_bundle_size",
    "C162_print"
   ],
   "note": "PAPI is a parameter of the theorems"
  },
  {
   "property": "C163",
   "status": "proved",
   "theorems": [
    "C163_layout",
    "C163_unreadable",
    "C163_null",
    "C163_unreadable_not_null",
    "C163_written",
    "C163_round_trip",
    "C163_no_header",
    "C163_banner_ignored"
   ],
   "note": "sizes are printed with at most 300 characters (every int is); %lg and %10.3g are parameters that agree up to a rounding function; negative sizes are not followed"
  },
  {
   "property": "C164",
   "status": "proved",
   "theorems": [
    "C164_text",
    "C164_read_back",
    "C164_csc",
    "C164_rectangular",
    "C164_csr_overrun"
   ],
   "note": "%lg and %.12f are parameters that agree up to a rounding function"
  }
 ]
}