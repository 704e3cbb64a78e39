{
 "claims": [
  {
   "property": "C01",
   "status": "proved",
   "theorems": [
    "C01_index_heap_is_priority_queue"
   ],
   "note": "every legal call sequence, any n and order"
  },
  {
   "property": "C02",
   "status": "proved",
   "theorems": [
    "C02_wrong_direction_key_change_refuted"
   ],
   "note": "the documented behaviour is false of the code: refutation with witness heaps"
  },
  {
   "property": "C03",
   "status": "proved",
   "theorems": [
    "C03_timestamped_vector_is_resettable_array",
    "C03_atomic_dists_is_resettable_array"
   ],
   "note": ""
  },
  {
   "property": "C04",
   "status": "proved",
   "theorems": [
    "C04_clearlist_vector_is_resettable_array",
    "C04_fast_clear_bitvec_is_index_set"
   ],
   "note": "ClearlistVector and FastClearBitVec over arbitrary histories"
  },
  {
   "property": "C05",
   "status": "proved",
   "theorems": [
    "C05_bitvec_is_index_set_without_count",
    "C05_bitvec_is_index_set",
    "C05_count_after_set_all_refuted"
   ],
   "note": "full claim refuted for set_all+count_ones; proved otherwise"
  },
  {
   "property": "C06",
   "status": "proved",
   "theorems": [
    "C06_rank_map_numbers_set_bits",
    "C06_rank_map_len",
    "C06_rank_map_len_after_set_all_refuted"
   ],
   "note": "len refuted after set_all on sizes not divisible by 64"
  },
  {
   "property": "C07",
   "status": "partial",
   "theorems": [
    "C07_select_inverts_rank_partial",
    "C07_select_inverts_rank_refuted"
   ],
   "note": "Proved for every bit vector history and every binary search unless the bit is the first of its 512-block and the block before is empty; in that case the claim is false (refuted: inverse panics)."
  },
  {
   "property": "C08",
   "status": "proved",
   "theorems": [
    "C08_label_heap"
   ],
   "note": "Every history of push, pop, peek, popped, clear and retain, any total preorder."
  },
  {
   "property": "C09",
   "status": "proved",
   "theorems": [
    "C09_node_order_is_a_bijection",
    "C09_only_permutations",
    "C09_identity"
   ],
   "note": "NodeOrder from_node_order/from_ranks on every permutation; debug builds accept nothing else."
  },
  {
   "property": "C10",
   "status": "proved",
   "theorems": [
    "C10_element_types",
    "C10_vector_round_trip",
    "C10_bad_files",
    "C10_bit_vector_round_trip",
    "C10_bit_vector_size_refuted",
    "C10_graph_round_trip",
    "C10_node_order_round_trip",
    "C10_cch_round_trip",
    "C10_cch_alone_refuted"
   ],
   "note": "Vectors of any plain element type, bit vectors (size rounded up to a multiple of 64, refuted as exact), graphs, node orders, CCHs with their order; bad sizes and truncated files. A CCH stored alone cannot be loaded (refuted)."
  },
  {
   "property": "C11",
   "status": "proved",
   "theorems": [
    "C11_reversed_has_exactly_the_reversed_arcs",
    "C11_reversed_transposes_distances"
   ],
   "note": "exact link lists of the reversed graph, and transposed distances"
  },
  {
   "property": "C12",
   "status": "proved",
   "theorems": [
    "C12_permutated_is_the_renamed_graph"
   ],
   "note": "for every implementation of sort_unstable_by_key meeting its contract"
  },
  {
   "property": "C13",
   "status": "proved",
   "theorems": [
    "C13_adjacency_lists_are_reported",
    "C13_edge_ids_link_and_tails",
    "C13_edge_indices_are_exactly_the_parallel_arcs",
    "C13_binary_search_meets_contract"
   ],
   "note": "for every binary search meeting the std contract; the concrete std algorithm is shown to meet it"
  },
  {
   "property": "C14",
   "status": "proved",
   "theorems": [
    "C14_unify_parallel_edges_keeps_distances",
    "C14_line_graph_walks_are_turn_walks"
   ],
   "note": ""
  },
  {
   "property": "C15",
   "status": "proved",
   "theorems": [
    "C15_ch_split_partitions_arcs"
   ],
   "note": ""
  },
  {
   "property": "C16",
   "status": "proved",
   "theorems": [
    "C16_dijkstra_returns_exact_distance",
    "C16_histories_never_fail",
    "C16_dijkstra_on_adjacency_array"
   ],
   "note": "any graph given by its link iterator, any server history; also on adjacency arrays"
  },
  {
   "property": "C17",
   "status": "proved",
   "theorems": [
    "C17_node_path_is_a_shortest_path",
    "C17_edge_path_is_a_shortest_path",
    "C17_link_iter_reports_edge_ids"
   ],
   "note": "node paths and edge id paths"
  },
  {
   "property": "C18",
   "status": "proved",
   "theorems": [
    "C18_answers_do_not_depend_on_earlier_queries"
   ],
   "note": ""
  },
  {
   "property": "C19",
   "status": "proved",
   "theorems": [
    "C19_checked_addition",
    "C19_dijkstra_never_overflows",
    "C19_bidirectional_never_overflows",
    "C19_cch_never_overflows",
    "C19_larger_weights_overflow"
   ],
   "note": "Every addition of weights, labels and tentative distances in the models of the four algorithms is the checked addition cadd (None = beyond u32::MAX, characterised by C19_checked_addition), and no run fails: any history of Dijkstra queries, any history of bidirectional queries with any cap, customization and perfect customization of every metric, any history of CCH queries, path extractions and metric updates. C19_larger_weights_overflow shows the bound on the weights is needed."
  },
  {
   "property": "C20",
   "status": "proved",
   "theorems": [
    "C20_astar_with_lower_bounds_is_exact",
    "C20_astar_with_feasible_potential_is_exact",
    "C20_astar_with_recycled_baseline_potential_is_exact",
    "C20_astar_with_turn_expanded_potential_is_exact"
   ],
   "note": "stronger: admissible lower bounds suffice; also for BaselinePotential, RecyclingPotential, TurnExpandedPotential"
  },
  {
   "property": "C21",
   "status": "proved",
   "theorems": [
    "C21_bidirectional_dijkstra_is_exact",
    "C21_alternating_bidirectional_dijkstra_is_exact",
    "C21_capped_query",
    "C21_histories_never_fail",
    "C21_server_on_adjacency_array"
   ],
   "note": "zero potential, both direction choosers, any query history; capped queries; node paths; adjacency arrays with the reversed graph of the code"
  },
  {
   "property": "C22",
   "status": "partial",
   "theorems": [
    "C22_nearest_neighbours_for_positive_k_partial",
    "C22_nearest_neighbours_k_zero_refuted"
   ],
   "note": "proved for every k >= 1; false for k = 0 (refuted): a source that is a target is returned"
  },
  {
   "property": "C23",
   "status": "proved",
   "theorems": [
    "C23_cch_is_chordal_supergraph",
    "C23_elimination_tree",
    "C23_edges_know_their_arcs",
    "C23_preprocessing_total"
   ],
   "note": "Preprocessing (contract) modelled from an adjacency array and a node order; every clause of the statement, plus totality."
  },
  {
   "property": "C24",
   "status": "proved",
   "theorems": [
    "C24_customized_weights",
    "C24_customization_preserves_distances"
   ],
   "note": "Any metric on the same topology with weights at most INFINITY; customize is total; every clause of the statement."
  },
  {
   "property": "C25",
   "status": "proved",
   "theorems": [
    "C25_query_exact_after_any_history"
   ],
   "note": "Elimination tree query exact for every CCH, every metric and every history of queries, path calls and updates on one server; all labels are reset."
  },
  {
   "property": "C26",
   "status": "proved",
   "theorems": [
    "C26_path_matches_distance"
   ],
   "note": "Unpacked path is a simple path of metric arcs with total weight equal to the distance; repeated path calls return the same path."
  },
  {
   "property": "C27",
   "status": "proved",
   "theorems": [
    "C27_parallel_customization_schedule_independent",
    "C27_parallel_perfect_customization_schedule_independent"
   ],
   "note": "Basic and perfect customization: every interleaving of instruction-level tasks on every validated separator tree, any number of workers: no panic, no deadlock, bounded length, result of the sequential routine."
  },
  {
   "property": "C28",
   "status": "proved",
   "theorems": [
    "C28_perfect_customization_keeps_exactly_the_shortest_edges",
    "C28_queries_on_perfect_customizations_exact",
    "C28_potential_on_perfect_customization_exact"
   ],
   "note": "Sequential perfect customization and sequential rebuild (feature cch-disable-par); the parallel rebuild is C29, the parallel schedule C27. The reduced graphs contain exactly the edges that are shortest, with unchanged weights; servers and potentials over any mix of basic and perfect customizations are exact."
  },
  {
   "property": "C29",
   "status": "partial",
   "theorems": [
    "C29_parallel_rebuild_equals_sequential_partial",
    "C29_parallel_perfect_customization_partial",
    "C29_enough_edges",
    "C29_parallel_rebuild_panics",
    "C29_works_for_every_thread_count_refuted",
    "C29_works_for_every_graph_refuted",
    "C29_works_for_directed_cchs_refuted"
   ],
   "note": "Proved: for any two directions, flags and k closures, parallel rebuild = sequential rebuild if (k-1)*ceil(m/k) < m and the lowest node has a forward edge; panics whenever the first condition fails. The full claim is false: refuted for small edge counts, for an isolated lowest node (query panics on the result) and for directed CCHs (backward edge dropped)."
  },
  {
   "property": "C30",
   "status": "proved",
   "theorems": [
    "C30_potential_exact",
    "C30_backward_potential_exact"
   ],
   "note": "CCHPotential in both directions, after any history of init and potential calls that starts with init; exact distance to the last target or None iff at least INFINITY. Basic customization. CCHPotentialWithPathUnpacking is not modelled."
  },
  {
   "property": "C31",
   "status": "partial",
   "theorems": [
    "C31_ch_distances_are_exact",
    "C31_meeting_node_lies_on_a_shortest_path",
    "C31_ch_on_cch_is_exact",
    "C31_path_between_different_nodes_panics",
    "C31_paths_refuted"
   ],
   "note": "Distances: proved for every hierarchy, every history of earlier queries on the same server, and every pair; the meeting node lies on a shortest path; instantiated for customized CCHs. Paths: the claim is false of the code. path() panics for every query between two different nodes (the predecessor walk looks up the arc from the predecessor to itself), and compares ranks with untranslated ids even for from = to; both are proved."
  },
  {
   "property": "C32",
   "status": "proved",
   "theorems": [
    "C32_rphast_distances_are_exact",
    "C32_rphast_distances_to_one_node",
    "C32_rphast_on_cch_is_exact",
    "C32_customized_cch_is_a_hierarchy",
    "C32_swapped_hierarchy"
   ],
   "note": "For every hierarchy (two upward graphs whose up-down lengths are exactly walk lengths and no longer than any walk; every basic and perfect CCH customization is one), every history of selections and queries succeeds and each node of the latest selection gets the exact distance, INFINITY if none. SSERPHASTQuery is not modelled."
  },
  {
   "property": "C33",
   "status": "proved",
   "theorems": [
    "C33_hub_label_distances_are_exact",
    "C33_hub_lies_on_a_shortest_path",
    "C33_labels_are_sorted",
    "C33_light_arcs_make_a_short_hierarchy",
    "C33_labels_of_infinite_arcs_overflow_refuted"
   ],
   "note": "For every hierarchy whose up-down lengths stay below 2^32 label construction succeeds, distances are exact (values >= INFINITY count as none; with lengths below INFINITY None exactly when there is no path), hubs lie on shortest paths, labels are sorted with each hub once. Without the length bound the 32 bit sums overflow (refuted for CCH graphs with INFINITY arcs)."
  },
  {
   "property": "C34",
   "status": "proved",
   "theorems": [
    "C34_landmark_preprocessing_succeeds",
    "C34_potential_is_a_lower_bound",
    "C34_triangle_inequality_on_arcs",
    "C34_potential_uses_every_landmark",
    "C34_astar_with_landmarks_is_exact"
   ],
   "note": "Graph built from adjacency lists, weights up to INFINITY, any non-empty landmark list. Lower bound, zero at target, arc consistency below INFINITY, at least every triangle bound, exact A*; forward and backward potentials. Landmark selection is not modelled (theorems hold for any landmarks)."
  },
  {
   "property": "C35",
   "status": "proved",
   "theorems": [
    "C35_eval_correct",
    "C35_eval_periodic_and_interpolates",
    "C35_eval_fifo",
    "C35_global_bounds",
    "C35_eval_needs_full_period_refuted"
   ],
   "note": "All valid functions (starting at 0, ending at the period with the first value, FIFO), all times. The refutation shows that the check in the constructor does not imply the full-period condition."
  },
  {
   "property": "C36",
   "status": "partial",
   "theorems": [
    "C36_lower_bound_in_range",
    "C36_lower_bound_in_range_whole_period",
    "C36_lower_bound_in_range_refuted",
    "C36_upper_bound_in_range_is_infinity",
    "C36_average_within_period",
    "C36_average_across_period_panics",
    "C36_average_constant_refuted"
   ],
   "note": "Lower bounds: exact minimum for non-empty ranges ending before two periods and for 0..b with b >= period. Refuted: empty ranges and ranges reaching the second period boundary; upper_bound_in_range always answers INFINITY on non-constant functions; average panics on constants and on every range crossing the period."
  },
  {
   "property": "C37",
   "status": "proved",
   "theorems": [
    "C37_new_builds_valid_functions",
    "C37_graph_eval",
    "C37_live_eval",
    "C37_live_fifo",
    "C37_pess_eval",
    "C37_pess_fifo",
    "C37_pess_expired",
    "C37_upper_bound",
    "C37_switching"
   ],
   "note": "Construction, evaluation, FIFO, expiry, upper bound and switching time for all graphs of valid functions."
  },
  {
   "property": "C38",
   "status": "proved",
   "theorems": [
    "C38_td_dijkstra",
    "C38_td_astar",
    "C38_live_dijkstra",
    "C38_pess_dijkstra"
   ],
   "note": "TDGraph, LiveTDGraph and PessimisticLiveTDGraph, after any history of queries, plain and (TDGraph) with any admissible potential."
  },
  {
   "property": "C39",
   "status": "proved",
   "theorems": [
    "C39_check_target",
    "C39_wrapped_server_exact"
   ],
   "note": "Every graph, pair and history; wrapped servers stay exact. The search is also exact when fewer than 201 nodes can reach the target."
  },
  {
   "property": "C40",
   "status": "proved",
   "theorems": [
    "C40_merge_is_the_greedy_partition",
    "C40_sums_can_overflow_refuted"
   ],
   "note": "Every list of metrics of equal length, every target size and every interleaving of the spawned tasks (loads, fetch_min, pushes): no infinite execution, no panic, the result is the greedy partition with exactly max(min(target,k),1) groups. Needs that sums of squared differences fit u64; refuted otherwise (five arcs suffice)."
  },
  {
   "property": "C41",
   "status": "proved",
   "theorems": [
    "C41_separator_tree_covers_nodes",
    "C41_reordered_order_validates",
    "C41_reorderings_are_permutations",
    "C41_empty_graph_does_not_validate_refuted"
   ],
   "note": "Separator tree covers each node once with right counts; the reorder functions return permutations; reorder_for_seperator_based_customization makes validation succeed on every non-empty graph. Refuted: the empty graph does not validate."
  },
  {
   "property": "C42",
   "status": "partial",
   "theorems": [
    "C42_returned_targets_have_their_distance_partial",
    "C42_few_targets_partial",
    "C42_nearest_target_missed_refuted"
   ],
   "note": "The claim is false: a nearest target in the source's own cell is missed (refutation). Proved instead: whatever is returned are targets with exact distances; with fewer than eight distinct targets, or at most k, the result is right."
  },
  {
   "property": "C43",
   "status": "proved",
   "theorems": [
    "C43_sentinel_options",
    "C43_payload_types"
   ],
   "note": "Any payload type with an equality; the payload types of the code."
  },
  {
   "property": "C44",
   "status": "partial",
   "theorems": [
    "C44_contract_returns_a_hierarchy",
    "C44_contraction_never_panics",
    "C44_contract_then_query_is_exact",
    "C44_contraction_preserves_distances_partial",
    "C44_contract_and_query_is_exact_partial",
    "C44_parallel_arcs_panic_refuted",
    "C44_overlay_loses_paths_refuted"
   ],
   "note": "For graphs without parallel arcs (loops allowed), arcs at most K times longer than necessary and K times the largest distance below INFINITY, contract returns for every order and the result is a hierarchy with exact distances (at most 65535 nodes, or whenever the arcs of the result fit into 32 bits). For every graph (parallel arcs included), whenever contract returns, the result is such a hierarchy. The claim that it returns for every graph is false: with parallel arcs it can panic (refutation). overlay() loses paths through the first uncontracted node (refutation)."
  },
  {
   "property": "C45",
   "status": "partial",
   "theorems": [
    "C45_average_is_consistent",
    "C45_average_unclamped_is_exact_partial",
    "C45_exact_potentials_are_unclamped",
    "C45_average_refuted"
   ],
   "note": "consistency proved for all feasible pairs; exactness only when values are not cut off at 0 on shortest walks and no addition overflows; in general refuted with a witness"
  },
  {
   "property": "C46",
   "status": "proved",
   "theorems": [
    "C46_one_to_all_labels_every_node_exactly"
   ],
   "note": ""
  },
  {
   "property": "C47",
   "status": "proved",
   "theorems": [
    "C47_ranks_reports_every_power_of_two_position"
   ],
   "note": ""
  },
  {
   "property": "C48",
   "status": "proved",
   "theorems": [
    "C48_symmetric_min_key_is_exact",
    "C48_symmetric_improved_pruning_is_exact",
    "C48_symmetric_improved_pruning_checked_answers_are_exact",
    "C48_symmetric_alternating_refuted"
   ],
   "note": "exact with ChooseMinKeyDir; AlternatingDirs refuted with a witness"
  },
  {
   "property": "C49",
   "status": "partial",
   "theorems": [
    "C49_live_lower_bound_partial",
    "C49_live_lower_bound_refuted"
   ],
   "note": "Proved when the report expires after the range or there is none; otherwise only the minimum with the live value is a bound. The general claim is refuted."
  },
  {
   "property": "C50",
   "status": "proved",
   "theorems": [
    "C50_nearest_neighbours",
    "C50_nearest_neighbours_backwards",
    "C50_no_target_asked_refuted"
   ],
   "note": "Backward potential (distances from the source) and forward potential (distances to the node), any history of queries. k = 0 panics (refutation)."
  },
  {
   "property": "C51",
   "status": "proved",
   "theorems": [
    "C51_potential_is_exact",
    "C51_potential_on_cch",
    "C51_potential_on_contracted_graph"
   ],
   "note": "Any hierarchy; instances for CCH (basic and perfect) and for graphs contracted with witness search."
  },
  {
   "property": "C52",
   "status": "proved",
   "theorems": [
    "C52_many_to_many_potential_is_exact",
    "C52_many_to_many_potential_on_cch",
    "C52_many_to_many_potential_on_contracted_graph",
    "C52_debug_build_panics",
    "C52_repeated_target_panics"
   ],
   "note": "Any hierarchy; instances for CCH and for graphs contracted with witness search. Debug builds panic (assertion on the wrong node) and repeated targets panic: both proved."
  },
  {
   "property": "C53",
   "status": "partial",
   "theorems": [
    "C53_bucket_nearest_neighbours_partial",
    "C53_enough_reachable_targets_partial",
    "C53_one_way_streets_lose_a_neighbour_refuted",
    "C53_unreachable_target_returned_refuted"
   ],
   "note": "True when no arc of the backward graph is over-long (no one way streets below shortcuts): entries below INFINITY are k nearest targets. False in general: with one way streets duplicate bucket entries lose a neighbour, and targets that cannot be reached fill up the answer (both refuted)."
  },
  {
   "property": "C54",
   "status": "proved",
   "theorems": [
    "C54_astar_with_ch_potential_is_exact",
    "C54_astar_with_cch_potential_is_exact",
    "C54_td_astar_with_cch_potential_is_exact"
   ],
   "note": "Static A* with CHPotential on any hierarchy and with CCHPotential; time-dependent A* with CCHPotential of lower bounds."
  },
  {
   "property": "C55",
   "status": "proved",
   "theorems": [
    "C55_directed_customization_has_the_same_weights",
    "C55_directed_cch_keeps_the_edges_some_metric_uses",
    "C55_queries_on_directed_customizations_exact"
   ],
   "note": "Sequential customization. Directed perfect customization is not covered."
  },
  {
   "property": "C56",
   "status": "proved",
   "theorems": [
    "C56_degree_skipping_queries_answer_up_to_the_cap",
    "C56_degree_skipping_queries_are_exact",
    "C56_degree_skipping_one_to_all_is_exact",
    "C56_wrong_degree_report_loses_paths_refuted"
   ],
   "note": "Static graphs (DefaultOps). Lower bound potentials at most 2^32 - 1 - INF."
  },
  {
   "property": "C57",
   "status": "proved",
   "theorems": [
    "C57_the_core_is_entered_through_the_bridge",
    "C57_topocore_server_is_exact",
    "C57_empty_graph_panics_refuted",
    "C57_core_without_low_degrees_loses_answers_refuted",
    "C57_eight_bit_degrees_lose_answers_refuted"
   ],
   "note": "The search of biconnected components, the component search and the server with BCC_CORE = false. The core is not proved to be biconnected itself, only separated. Three theorems show the hypotheses are needed."
  },
  {
   "property": "C58",
   "status": "partial",
   "theorems": [
    "C58_core_phase_loses_answers_refuted",
    "C58_core_phase_is_exact_between_different_bridges_partial"
   ],
   "note": "Refuted as stated: with BCC_CORE = true (the default) a target behind the source's own bridge is reported unreachable. Proved for feasible potentials: exact distances and paths for all pairs attached to the core at different places, after any earlier queries between such pairs."
  },
  {
   "property": "C59",
   "status": "proved",
   "theorems": [
    "C59_filter_keeps_minimal_ranges"
   ],
   "note": "Modelled with the BTreeMap as ordered association list and the sort given by its contract."
  },
  {
   "property": "C60",
   "status": "proved",
   "theorems": [
    "C60_violating_subpaths",
    "C60_empty_iff_fine"
   ],
   "note": "The Dijkstra based variant. The threshold is any non-decreasing function of the distance, which covers the cast of epsilon * distance; floating point itself is not modelled. The variants on CCH potentials and RPHAST share the tree search (its proof is generic in the trees) but are not instantiated."
  },
  {
   "property": "C61",
   "status": "proved",
   "theorems": [
    "C61_unpacked_paths_are_shortest",
    "C61_zero_weights_refuted"
   ],
   "note": "Positive weights, full; for weights of 0 the property fails in the code (parents 1 -> 0 -> 2 -> 1 after unpack_path(1)), shown by the refutation."
  },
  {
   "property": "C62",
   "status": "proved",
   "theorems": [
    "C62_violating_subpaths",
    "C62_naive_search"
   ],
   "note": "Full for positive weights at most INFINITY; the threshold is any monotone function of the distance (epsilon and f64 rounding are not modelled). C62_naive_search states the same of the naive search for simple paths."
  },
  {
   "property": "C63",
   "status": "proved",
   "theorems": [
    "C63_fixed_paths"
   ],
   "note": "Full for positive weights at most INFINITY; the threshold is any monotone function of the distance (epsilon and f64 rounding are not modelled)."
  },
  {
   "property": "C64",
   "status": "proved",
   "theorems": [
    "C64_local_optimality"
   ],
   "note": "Full for positive weights at most INFINITY and simple paths; the result is the pair of lengths whose quotient the code returns as f64."
  },
  {
   "property": "C65",
   "status": "proved",
   "theorems": [
    "C65_tds_server_refuted"
   ],
   "note": "The claim is false of the code for every graph with an arc: the window from 22 to 5 o'clock crosses the period and average panics (refutation for all functions, CCHs and builds)."
  },
  {
   "property": "C66",
   "status": "proved",
   "theorems": [
    "C66_validities",
    "C66_parallel_validities"
   ],
   "note": "Sequential execution and every schedule of the parallel one, for every number of workers."
  },
  {
   "property": "C67",
   "status": "proved",
   "theorems": [
    "C67_directed_perfect_customization_sound",
    "C67_queries_on_directed_perfect_customizations_exact",
    "C67_directed_perfect_weights_are_distances_refuted"
   ],
   "note": "Sequential execution (feature cch-disable-par). Refuted: the weights need not be distances, unlike for CCHs, because triangles through removed arcs are not looked at."
  },
  {
   "property": "C68",
   "status": "proved",
   "theorems": [
    "C68_construction_fails_iff_input_empty",
    "C68_links_are_followed_by_their_traces",
    "C68_trailing_links_panic_in_debug_builds",
    "C68_traces_of_unknown_links_panic",
    "C68_every_link_is_delivered_refuted"
   ],
   "note": "Refuted: not every link is delivered, trailing links without traces are dropped. The estimator that consumes the stream (floating point) is not modelled."
  }
 ]
}