{
 "claims": [
  {
   "property": "C01",
   "status": "proved",
   "theorems": [
    "C01_bfs_reports_reachable_once"
   ],
   "note": ""
  },
  {
   "property": "C02",
   "status": "proved",
   "theorems": [
    "C02_bfs_depth_minimal"
   ],
   "note": ""
  },
  {
   "property": "C03",
   "status": "proved",
   "theorems": [
    "C03_bfs_paths"
   ],
   "note": "Different start vertices must have different ids (starts_distinct)."
  },
  {
   "property": "C04",
   "status": "proved",
   "theorems": [
    "C04_bfs_already_visited",
    "C04_ntd_already_visited",
    "C09_dfs_reports_reachable_once",
    "C10_dfs_tree",
    "C17_topological_order"
   ],
   "note": ""
  },
  {
   "property": "C05",
   "status": "proved",
   "theorems": [
    "C05_bfs_calculation_limit",
    "C05_dijkstra_calculation_limit",
    "C05_astar_calculation_limit",
    "C05_mst_calculation_limit",
    "C05_ntd_calculation_limit",
    "C05_dfs_calculation_limit",
    "C05_topo_calculation_limit",
    "C05_bidirectional_bfs_calculation_limit",
    "C05_bidirectional_shortest_path_calculation_limit",
    "C05_infinite_branching_calculation_limit"
   ],
   "note": "Infinite branching: see also C76 and C77."
  },
  {
   "property": "C06",
   "status": "proved",
   "theorems": [
    "C06_depth_range"
   ],
   "note": ""
  },
  {
   "property": "C07",
   "status": "proved",
   "theorems": [
    "C07_ntd_reports_reachable_once"
   ],
   "note": ""
  },
  {
   "property": "C08",
   "status": "proved",
   "theorems": [
    "C08_ntd_paths_and_depth"
   ],
   "note": "Different start vertices must have different ids (starts_distinct)."
  },
  {
   "property": "C09",
   "status": "proved",
   "theorems": [
    "C09_dfs_reports_reachable_once"
   ],
   "note": "Option is_tree off; see C49 for it."
  },
  {
   "property": "C10",
   "status": "proved",
   "theorems": [
    "C10_dfs_tree",
    "C10_dfs_with_and_without_trace"
   ],
   "note": ""
  },
  {
   "property": "C11",
   "status": "proved",
   "theorems": [
    "C11_dfs_trace"
   ],
   "note": ""
  },
  {
   "property": "C12",
   "status": "proved",
   "theorems": [
    "C12_dfs_nested"
   ],
   "note": ""
  },
  {
   "property": "C13",
   "status": "proved",
   "theorems": [
    "C13_dfs_edge_kinds"
   ],
   "note": "If BACK_EDGE is not requested, see C61."
  },
  {
   "property": "C14",
   "status": "proved",
   "theorems": [
    "C14_dfs_all_paths"
   ],
   "note": "already_visited is ignored by the code in this mode (documented)."
  },
  {
   "property": "C15",
   "status": "proved",
   "theorems": [
    "C15_dfs_all_walks"
   ],
   "note": ""
  },
  {
   "property": "C16",
   "status": "partial",
   "theorems": [
    "C16_dfs_labels_partial",
    "C16_dfs_labels_refuted"
   ],
   "note": "The full claim is false of the code: counterexample proved. What holds is proved: the label of an edge of the trace is right unless only first edges have been followed."
  },
  {
   "property": "C17",
   "status": "proved",
   "theorems": [
    "C17_topological_order"
   ],
   "note": "No start vertex can be reached from another one (for example, one start vertex); see C65 for the other case."
  },
  {
   "property": "C18",
   "status": "proved",
   "theorems": [
    "C18_cycle_error_means_cycle",
    "C18_topo_decides_cycle"
   ],
   "note": "For the second part, no start vertex can be reached from another one; see C66."
  },
  {
   "property": "C19",
   "status": "partial",
   "theorems": [
    "C19_cycle_from_start_partial",
    "C19_cycle_from_start_refuted"
   ],
   "note": "The documented claim is false of the code: counterexample proved. What holds is proved: cycle_from_start contains a path that ends with a cycle, with additional elements, and is one if no vertex is repeated."
  },
  {
   "property": "C20",
   "status": "proved",
   "theorems": [
    "C20_dijkstra_distance_minimal"
   ],
   "note": ""
  },
  {
   "property": "C21",
   "status": "proved",
   "theorems": [
    "C21_dijkstra_reports_reachable_once"
   ],
   "note": ""
  },
  {
   "property": "C22",
   "status": "proved",
   "theorems": [
    "C22_dijkstra_paths"
   ],
   "note": "Different start vertices must have different ids (starts_distinct)."
  },
  {
   "property": "C23",
   "status": "proved",
   "theorems": [
    "C23_dijkstra_keep_distances"
   ],
   "note": ""
  },
  {
   "property": "C24",
   "status": "proved",
   "theorems": [
    "C24_dijkstra_overflow",
    "C24_astar_overflow",
    "C24_bidirectional_shortest_path_overflow"
   ],
   "note": "The converse for the bidirectional search is about the edges the search has looked at."
  },
  {
   "property": "C25",
   "status": "proved",
   "theorems": [
    "C25_dijkstra_distance_range"
   ],
   "note": ""
  },
  {
   "property": "C26",
   "status": "proved",
   "theorems": [
    "C26_astar_goal_optimal"
   ],
   "note": "Exact weight arithmetic; option is_tree off."
  },
  {
   "property": "C27",
   "status": "proved",
   "theorems": [
    "C27_astar_consistent"
   ],
   "note": "Exact weight arithmetic; finite estimations (see C55)."
  },
  {
   "property": "C28",
   "status": "proved",
   "theorems": [
    "C28_mst_spanning_tree"
   ],
   "note": ""
  },
  {
   "property": "C29",
   "status": "proved",
   "theorems": [
    "C29_mst_minimal"
   ],
   "note": "With negative weights, the total is compared to edge sets of the same size, since a larger set of edges can weigh less than any tree."
  },
  {
   "property": "C30",
   "status": "proved",
   "theorems": [
    "C30_distances",
    "C30_progress",
    "C30_paths",
    "C30_stored_distances"
   ],
   "note": "Weights are integers or infinity; distinct start vertices."
  },
  {
   "property": "C31",
   "status": "proved",
   "theorems": [
    "C31_bidirectional_bfs_exact",
    "C31_bidirectional_bfs_path"
   ],
   "note": "The path needs ids that differ for different vertices; C69 shows what happens otherwise."
  },
  {
   "property": "C32",
   "status": "partial",
   "theorems": [
    "C32_bidirectional_shortest_path_refuted",
    "C32_bidirectional_shortest_path_exact_partial"
   ],
   "note": "Refuted in general by a counterexample; proved for graphs with equal weights and for graphs where the weight of a path depends on its ends only. C70 bounds the error."
  },
  {
   "property": "C33",
   "status": "proved",
   "theorems": [
    "C33_bidirectional_shortest_path_real",
    "C33_bidirectional_shortest_path_path"
   ],
   "note": "Sums of weights are exact. The path needs ids that differ for different vertices."
  },
  {
   "property": "C34",
   "status": "proved",
   "theorems": [
    "C34_tour",
    "C34_outcome"
   ],
   "note": "Weights are integers."
  },
  {
   "property": "C35",
   "status": "partial",
   "theorems": [
    "C35_finds_existing_tour_refuted",
    "C35_shortest_tour_refuted",
    "C35_near_optimal_partial",
    "C35_twice_shortest_partial",
    "C35_equal_weights_partial"
   ],
   "note": "Refuted in both parts: KeyError is raised although a tour exists, and a tour that is not optimal is returned. Proved: an approximation bound for every weight table, and the full claim if all edges have the same weight."
  },
  {
   "property": "C36",
   "status": "proved",
   "theorems": [
    "C36_negative_weights",
    "C36_find_longest"
   ],
   "note": "Weights are integers."
  },
  {
   "property": "C37",
   "status": "proved",
   "theorems": [
    "C37_paths_views_agree"
   ],
   "note": ""
  },
  {
   "property": "C38",
   "status": "proved",
   "theorems": [
    "C38_path_views_agree"
   ],
   "note": ""
  },
  {
   "property": "C39",
   "status": "proved",
   "theorems": [
    "C39_go_to"
   ],
   "note": ""
  },
  {
   "property": "C40",
   "status": "proved",
   "theorems": [
    "C40_go_for_vertices_in"
   ],
   "note": "For sources that report no vertex twice; see C52."
  },
  {
   "property": "C41",
   "status": "proved",
   "theorems": [
    "C41_sets_behave_as_sets"
   ],
   "note": ""
  },
  {
   "property": "C42",
   "status": "proved",
   "theorems": [
    "C42_mappings_behave_as_maps"
   ],
   "note": ""
  },
  {
   "property": "C43",
   "status": "proved",
   "theorems": [
    "C43_bfs_gear_independent",
    "C43_dijkstra_gear_independent",
    "C43_astar_gear_independent",
    "C43_mst_gear_independent",
    "C43_ntd_gear_independent",
    "C43_dfs_gear_independent",
    "C43_topo_gear_independent",
    "C43_bidirectional_bfs_gear_independent",
    "C43_bidirectional_shortest_path_gear_independent",
    "C43_infinite_branching_gear_independent"
   ],
   "note": "The collections are used by their operations here; that the specialised code for sequences does the same is C80 and C81 (exceptions: C82)."
  },
  {
   "property": "C44",
   "status": "proved",
   "theorems": [
    "C44_bfs_vertex_to_id",
    "C44_dijkstra_vertex_to_id",
    "C44_astar_vertex_to_id",
    "C44_mst_vertex_to_id",
    "C44_ntd_vertex_to_id",
    "C44_dfs_vertex_to_id",
    "C44_topo_vertex_to_id",
    "C44_bidirectional_bfs_vertex_to_id",
    "C44_bidirectional_shortest_path_vertex_to_id"
   ],
   "note": "Depth first search: all modes; in ALL_WALKS and for tree searches with vertex_to_id not injective if no start vertex lies on a cycle. Otherwise refuted, see C87. Infinite branching and traveling_salesman have no vertex_to_id."
  },
  {
   "property": "C45",
   "status": "proved",
   "theorems": [
    "C45_adapt_edge_iterable",
    "C45_edge_iterable_graph",
    "C45_adapt_edge_index_mapping",
    "C45_adapt_edge_index_sequence"
   ],
   "note": "For a Sequence, vertices are non-negative numbers or add_inverted is chosen (see C71)."
  },
  {
   "property": "C46",
   "status": "proved",
   "theorems": [
    "C46_wrap_to_cuboid",
    "C46_is_in_cuboid",
    "C46_wrap_and_move"
   ],
   "note": ""
  },
  {
   "property": "C47",
   "status": "proved",
   "theorems": [
    "C47_moves",
    "C47_neighbors",
    "C47_neighbors_symmetric"
   ],
   "note": ""
  },
  {
   "property": "C48",
   "status": "proved",
   "theorems": [
    "C48_set_get",
    "C48_negative_coordinates",
    "C48_mutable_copy",
    "C48_items",
    "C48_findall",
    "C48_size"
   ],
   "note": "Size and limits are for arrays with at least one cell per dimension (see C73)."
  },
  {
   "property": "C49",
   "status": "proved",
   "theorems": [
    "C49_dfs_is_tree",
    "C49_topo_is_tree",
    "C49_bfs_is_tree",
    "C49_ntd_is_tree",
    "C49_dijkstra_is_tree",
    "C49_astar_is_tree"
   ],
   "note": "All traversals with option is_tree; the bidirectional searches and minimum spanning tree have no such option."
  },
  {
   "property": "C50",
   "status": "proved",
   "theorems": [
    "C50_configuration_errors",
    "C50_dfs_options",
    "C50_bidirectional_configuration_errors"
   ],
   "note": ""
  },
  {
   "property": "C51",
   "status": "partial",
   "theorems": [
    "C51_depth_range_consumes_one_refuted"
   ],
   "note": "The claim is false of the code: counterexample proved."
  },
  {
   "property": "C52",
   "status": "partial",
   "theorems": [
    "C52_go_for_vertices_in_repeated_refuted"
   ],
   "note": "The claim is false of the code: counterexample proved."
  },
  {
   "property": "C53",
   "status": "proved",
   "theorems": [
    "C53_dijkstra_known_distances"
   ],
   "note": ""
  },
  {
   "property": "C54",
   "status": "proved",
   "theorems": [
    "C54_astar_any_heuristic"
   ],
   "note": ""
  },
  {
   "property": "C55",
   "status": "partial",
   "theorems": [
    "C55_astar_infinite_estimates_refuted"
   ],
   "note": "The documented claim is false of the code; the theorem gives the counterexample."
  },
  {
   "property": "C56",
   "status": "partial",
   "theorems": [
    "C56_astar_order_refuted"
   ],
   "note": "The documented claim is false of the code; the theorem gives the counterexample."
  },
  {
   "property": "C57",
   "status": "partial",
   "theorems": [
    "C57_mst_tie_breaker_refuted"
   ],
   "note": "The documented claim is false of the code; the theorem gives the counterexample."
  },
  {
   "property": "C58",
   "status": "proved",
   "theorems": [
    "C58_ntd_order"
   ],
   "note": ""
  },
  {
   "property": "C59",
   "status": "proved",
   "theorems": [
    "C59_dfs_skip_expanding"
   ],
   "note": ""
  },
  {
   "property": "C60",
   "status": "partial",
   "theorems": [
    "C60_dfs_forward_or_cross_refuted"
   ],
   "note": "The documented claim is false of the code; the theorem gives the counterexample."
  },
  {
   "property": "C61",
   "status": "partial",
   "theorems": [
    "C61_dfs_cross_without_back_refuted"
   ],
   "note": "The documented claim is false of the code; the theorem gives the counterexample."
  },
  {
   "property": "C62",
   "status": "partial",
   "theorems": [
    "C62_dfs_walks_start_event_refuted"
   ],
   "note": "The claim is false of the code; the theorem gives the counterexample."
  },
  {
   "property": "C63",
   "status": "partial",
   "theorems": [
    "C63_dfs_all_paths_paths_refuted"
   ],
   "note": "The claim is false of the code; the theorem gives the counterexample."
  },
  {
   "property": "C64",
   "status": "proved",
   "theorems": [
    "C64_dfs_fewer_events"
   ],
   "note": ""
  },
  {
   "property": "C65",
   "status": "partial",
   "theorems": [
    "C65_order_of_several_starts_partial",
    "C65_order_of_several_starts_refuted"
   ],
   "note": "The claim is false of the code: counterexample proved. What holds is proved."
  },
  {
   "property": "C66",
   "status": "partial",
   "theorems": [
    "C66_cycle_through_starts_refuted"
   ],
   "note": "The claim is false of the code; the theorem gives the counterexample."
  },
  {
   "property": "C67",
   "status": "partial",
   "theorems": [
    "C67_start_given_twice_refuted"
   ],
   "note": "The claim is false of the code; the theorem gives the counterexample."
  },
  {
   "property": "C68",
   "status": "proved",
   "theorems": [
    "C68_topo_depth_and_paths"
   ],
   "note": ""
  },
  {
   "property": "C69",
   "status": "partial",
   "theorems": [
    "C69_bidirectional_path_same_ids_refuted"
   ],
   "note": "Refuted by a counterexample; with distinct ids the claim is C31_bidirectional_bfs_path."
  },
  {
   "property": "C70",
   "status": "proved",
   "theorems": [
    "C70_bidirectional_shortest_path_at_most_double"
   ],
   "note": "Sums of weights are exact."
  },
  {
   "property": "C71",
   "status": "partial",
   "theorems": [
    "C71_edge_index_negative_vertex_refuted"
   ],
   "note": "Refuted by a counterexample."
  },
  {
   "property": "C72",
   "status": "proved",
   "theorems": [
    "C72_next_vertices_from_forbidden",
    "C72_next_edges_from_cell_weights",
    "C72_array_neighbors_symmetric"
   ],
   "note": ""
  },
  {
   "property": "C73",
   "status": "partial",
   "theorems": [
    "C73_size_of_empty_array_refuted"
   ],
   "note": "Refuted: an IndexError is raised whenever a dimension has no cells."
  },
  {
   "property": "C74",
   "status": "proved",
   "theorems": [
    "C74_manhattan_metric",
    "C74_manhattan_moves",
    "C74_arithmetic"
   ],
   "note": ""
  },
  {
   "property": "C75",
   "status": "proved",
   "theorems": [
    "C75_lazy_reading",
    "C75_distance_attribute"
   ],
   "note": ""
  },
  {
   "property": "C76",
   "status": "proved",
   "theorems": [
    "C76_limit_is_vertices_plus_edges"
   ],
   "note": ""
  },
  {
   "property": "C77",
   "status": "partial",
   "theorems": [
    "C77_limit_bounds_vertices_and_edges_refuted"
   ],
   "note": "Refuted: the first edge of a vertex is read without being counted."
  },
  {
   "property": "C78",
   "status": "partial",
   "theorems": [
    "C78_tree_with_known_distances_refuted"
   ],
   "note": "Refuted: OverflowError is raised at the first edge."
  },
  {
   "property": "C79",
   "status": "partial",
   "theorems": [
    "C79_dfs_array_gear_paths_refuted"
   ],
   "note": "Refuted: no empty path is stored for a start vertex whose slot in the array already exists, so there is no path for it and for the vertices reached from it. For gears that mark gaps by None or use dicts, the theorems for C10 and C15 hold (hypothesis marks_gaps)."
  },
  {
   "property": "C80",
   "status": "proved",
   "theorems": [
    "C80_sequence_set_code",
    "C80_sequence_map_code"
   ],
   "note": ""
  },
  {
   "property": "C81",
   "status": "proved",
   "theorems": [
    "C81_dijkstra_no_internal_error",
    "C81_a_star_no_internal_error",
    "C81_bsearch_shortest_path_no_internal_error",
    "C81_topological_sort_no_internal_error",
    "C81_dfs_no_internal_error"
   ],
   "note": ""
  },
  {
   "property": "C82",
   "status": "partial",
   "theorems": [
    "C82_topological_sort_start_vertices_refuted",
    "C82_dfs_already_visited_refuted"
   ],
   "note": "Refuted: with byte or bit sequences, AssertionError is raised when an edge leads to a start vertex, resp. an already visited vertex, with an id beyond the end of the set of vertices on the trace. Positive cases: C81."
  },
  {
   "property": "C83",
   "status": "proved",
   "theorems": [
    "C83_start_vertices",
    "C83_infinite_branching",
    "C83_bsearch_shortest_path",
    "C83_bsearch_breadth_first"
   ],
   "note": ""
  },
  {
   "property": "C84",
   "status": "partial",
   "theorems": [
    "C84_infinite_branching_iterator_refuted",
    "C84_bsearch_breadth_first_iterator_refuted"
   ],
   "note": "Refuted: infinite branching loses the start vertices with store_distances and without build_paths; BSearchBreadthFirst does not detect common start and goal vertices. Positive cases: C83."
  },
  {
   "property": "C85",
   "status": "proved",
   "theorems": [
    "C85_range_fits_array",
    "C85_dijkstra_range",
    "C85_a_star_range",
    "C85_bsearch_shortest_path_range"
   ],
   "note": ""
  },
  {
   "property": "C86",
   "status": "proved",
   "theorems": [
    "C86_each_report_once",
    "C86_operations_deliver_what_they_seek",
    "C86_exhausted",
    "C86_own_exception_once",
    "C86_vertices_iterator_bound",
    "C86_fail_silently",
    "C86_missing_vertices",
    "C86_passes",
    "C86_breadth_first_history"
   ],
   "note": ""
  },
  {
   "property": "C87",
   "status": "partial",
   "theorems": [
    "C87_dfs_all_walks_vertex_to_id_refuted"
   ],
   "note": "Refuted: the start vertex is recognized by comparing vertices, not ids. Positive cases: C44."
  },
  {
   "property": "C88",
   "status": "proved",
   "theorems": [
    "C88_bfs_search_aware",
    "C88_ntd_search_aware",
    "C88_dfs_search_aware",
    "C88_dfs_without_trace_search_aware",
    "C88_topo_search_aware",
    "C88_mst_search_aware",
    "C88_dijkstra_search_aware",
    "C88_bfs_reports_in_graph_of_answers",
    "C88_dijkstra_distances_in_graph_of_answers"
   ],
   "note": "An answer is complete when the function returns (an iterator that looks at the traversal while it is read is not modelled)."
  },
  {
   "property": "C89",
   "status": "proved",
   "theorems": [
    "C89_series_reports",
    "C89_series_visited",
    "C89_series_complete"
   ],
   "note": "Depth first search: mode DFS_TREE, the events ENTERING_SUCCESSOR and possibly ENTERING_START. is_tree and report_depth_increase are not chosen."
  },
  {
   "property": "C90",
   "status": "proved",
   "theorems": [
    "C90_nested_breadth_first",
    "C90_nested_neighbors_then_depth",
    "C90_nested_depth_first",
    "C90_nested_topological_sort_of_tree",
    "C90_nested_shortest_paths",
    "C90_nested_a_star",
    "C90_nested_minimum_spanning_tree",
    "C90_nested_infinite_branching",
    "C90_restart_breadth_first",
    "C90_restart_neighbors_then_depth",
    "C90_restart_depth_first",
    "C90_restart_topological_sort"
   ],
   "note": "Interleaving of passes of the loops of the generators; for the traversals of weighted graphs, the theorem about nested use contains the one about restarts. A generator that has not been used before the object is started again is not considered."
  },
  {
   "property": "C91",
   "status": "partial",
   "theorems": [
    "C91_breadth_first_depth_refuted",
    "C91_neighbors_then_depth_depth_refuted",
    "C91_depth_first_depth_refuted",
    "C91_depth_first_event_refuted",
    "C91_topological_sort_twice_refuted",
    "C91_topological_sort_lost_refuted"
   ],
   "note": "Refuted: concrete nested loops with wrong depths and events, a vertex reported twice, and a start vertex that is lost."
  },
  {
   "property": "C92",
   "status": "proved",
   "theorems": [
    "C92_series_of_known_distances",
    "C92_series_left_early"
   ],
   "note": "is_tree is not chosen; keep_distances is chosen."
  },
  {
   "property": "C93",
   "status": "proved",
   "theorems": [
    "C93_bfs_lazy_answers",
    "C93_ntd_lazy_answers",
    "C93_dijkstra_lazy_answers",
    "C93_bfs_reports_in_graph_of_read_edges",
    "C93_dijkstra_distances_in_graph_of_read_edges"
   ],
   "note": "is_tree is not chosen. Depth first search and topological sort read an answer without a visible change in between: C88."
  },
  {
   "property": "C94",
   "status": "proved",
   "theorems": [
    "C94_breadth_first_reads",
    "C94_breadth_first_reads_smaller_depths",
    "C94_neighbors_then_depth_reads",
    "C94_depth_first_reads",
    "C94_shortest_paths_reads",
    "C94_a_star_reads",
    "C94_minimum_spanning_tree_reads"
   ],
   "note": "Breadth first search without report_depth_increase."
  },
  {
   "property": "C95",
   "status": "proved",
   "theorems": [
    "C95_bidirectional_bfs_reads_half"
   ],
   "note": ""
  },
  {
   "property": "C96",
   "status": "proved",
   "theorems": [
    "C96_floats_are_ieee",
    "C96_float_distances_nearly_minimal",
    "C96_float_paths_nearly_shortest",
    "C96_float_distances_exact"
   ],
   "note": "Python's float is the instance with 53 bits and largest number py_largest; C96_floats_are_ieee relates it to Coq.Floats.SpecFloat."
  },
  {
   "property": "C97",
   "status": "partial",
   "theorems": [
    "C97_cfloat_gear_misses_vertex_refuted",
    "C97_cfloat_gear_repeats_vertex_refuted",
    "C97_stored_distances_partial",
    "C97_single_floats_partial"
   ],
   "note": "Refuted for arrays of type \"f\": a reachable vertex is missed, a vertex is reported repeatedly. Proved: reported distances are those of real walks; no difference if all sums are C floats."
  },
  {
   "property": "C98",
   "status": "proved",
   "theorems": [
    "C98_float_goal_nearly_optimal",
    "C98_float_all_reported"
   ],
   "note": "The path that the paths container delivers is not part of this claim."
  },
  {
   "property": "C99",
   "status": "partial",
   "theorems": [
    "C99_float_astar_repeats_vertex_refuted",
    "C99_float_astar_not_minimal_refuted",
    "C99_float_first_report_partial"
   ],
   "note": "Refuted with an estimation of 2^60 and weights 1 and 0.25. Proved: at the first report of a vertex, path_length plus estimation is nearly minimal."
  },
  {
   "property": "C100",
   "status": "proved",
   "theorems": [
    "C100_breadth_first_work",
    "C100_neighbors_then_depth_work",
    "C100_depth_first_work",
    "C100_topological_sort_work",
    "C100_shortest_paths_work",
    "C100_a_star_work",
    "C100_minimum_spanning_tree_work"
   ],
   "note": "A pass of the loops is the unit; a heap operation counts as part of a pass. Bidirectional searches and infinite branching: C105."
  },
  {
   "property": "C101",
   "status": "proved",
   "theorems": [
    "C101_breadth_first_options",
    "C101_neighbors_then_depth_options",
    "C101_depth_first_options",
    "C101_topological_sort_options",
    "C101_shortest_paths_options",
    "C101_a_star_options",
    "C101_minimum_spanning_tree_options"
   ],
   "note": "Runs are compared pass by pass. The example C101_known_twice shows that the condition about start vertices given twice (with known distances and different keep_distances) is needed."
  },
  {
   "property": "C102",
   "status": "proved",
   "theorems": [
    "C102_mst_minimal_in_every_measure",
    "C102_float_mst_minimal"
   ],
   "note": "Extends C29 to measures and to floats; infinite float weights count like the largest float."
  },
  {
   "property": "C103",
   "status": "proved",
   "theorems": [
    "C103_mst_heaviest_edge_minimal"
   ],
   "note": "Holds for directed graphs, too."
  },
  {
   "property": "C104",
   "status": "proved",
   "theorems": [
    "C104_same_vertices",
    "C104_depth_is_distance",
    "C104_astar_is_dijkstra",
    "C104_bidirectional_is_bfs"
   ],
   "note": "Combines C01, C02, C07, C09, C20, C21, C27, C28, C31 and C54. Without already_visited and known_distances, is_tree off. BSearchShortestPath is not part of it (see C32, C33, C70)."
  },
  {
   "property": "C105",
   "status": "proved",
   "theorems": [
    "C105_bidirectional_breadth_first_work",
    "C105_bidirectional_shortest_path_work",
    "C105_infinite_branching_work"
   ],
   "note": "A pass of the loops is the unit; a heap operation counts as part of a pass."
  },
  {
   "property": "C106",
   "status": "proved",
   "theorems": [
    "C106_strongly_connected_components"
   ],
   "note": "The program of the documentation (docs/source/reduction_of_other_problems.rst), with vertices that are their own ids."
  },
  {
   "property": "C107",
   "status": "proved",
   "theorems": [
    "C107_articulation_points"
   ],
   "note": "The program of the documentation (docs/source/reduction_of_other_problems.rst), with vertices that are their own ids."
  },
  {
   "property": "C108",
   "status": "partial",
   "theorems": [
    "C108_biconnected_components_documented_refuted",
    "C108_biconnected_components_inner_refuted",
    "C108_biconnected_components_missing_refuted"
   ],
   "note": "The claim is false for the program: already the documented result is wrong. Finding 31."
  },
  {
   "property": "C109",
   "status": "proved",
   "theorems": [
    "C109_demo_traveling_salesman"
   ],
   "note": "The program of the documentation (docs/source/reduction_of_other_problems.rst). The third result, the share of visited states, is not modelled."
  },
  {
   "property": "C110",
   "status": "proved",
   "theorems": [
    "C110_astar_search_aware",
    "C110_bidirectional_bfs_search_aware",
    "C110_bidirectional_bfs_same_graph",
    "C110_bidirectional_shortest_path_search_aware",
    "C110_bidirectional_shortest_path_same_graph"
   ],
   "note": "An answer is complete when the function returns. The bidirectional searches are considered from the begin of their loop, i.e., after the check for common start and goal vertices."
  },
  {
   "property": "C111",
   "status": "partial",
   "theorems": [
    "C111_longest_path_refuted",
    "C111_longest_path_negative_refuted",
    "C111_longest_path_partial"
   ],
   "note": "The program can return a wrong path with a wrong length, because of C16 (finding 32). Proved for graphs in which all edges have the same weight (problem 2 of the documentation), or in which the first edge of the start vertex is a loop. Weights are integers in the model."
  },
  {
   "property": "C112",
   "status": "partial",
   "theorems": [
    "C112_iterative_deepening_walks_refuted",
    "C112_iterative_deepening_partial"
   ],
   "note": "In mode ALL_WALKS, the program does not end if no goal, but a cycle can be reached (finding 33). Everything else is proved: no errors, returned paths are shortest ways, an empty result is right, a way is found if there is one, the program ends in mode ALL_PATHS for finitely many reachable vertices. The other version of the program (one search with a growing graph and lazy start vertices) is C116."
  },
  {
   "property": "C113",
   "status": "proved",
   "theorems": [
    "C113_sieve_yields_primes",
    "C113_sieve_up_to"
   ],
   "note": "Numbers are doubled, so that 0.5 becomes 1; arithmetic is exact (floats are, up to 2^52)."
  },
  {
   "property": "C114",
   "status": "proved",
   "theorems": [
    "C114_primes_and_others",
    "C114_every_number",
    "C114_up_to",
    "C114_divisors"
   ],
   "note": "Numbers are doubled, so that 0.5 becomes 1; arithmetic is exact (floats are, up to 2^52). The examples give the outputs of the documentation."
  },
  {
   "property": "C115",
   "status": "proved",
   "theorems": [
    "C115_graph_of_answers",
    "C115_distances_in_graph_of_answers"
   ],
   "note": "Iterators that raise exceptions other than StopIteration are not modelled."
  },
  {
   "property": "C116",
   "status": "proved",
   "theorems": [
    "C116_same_results",
    "C116_shortest_way"
   ],
   "note": "Both documented programs are modelled on top of the model of TraversalDepthFirst; the results agree step by step. The single search for no goal vertices ends at once (go_for_vertices_in), so the comparison is for at least one goal vertex. Termination of both programs fails for cyclic graphs without reachable goals in mode ALL_WALKS (C112)."
  },
  {
   "property": "C117",
   "status": "proved",
   "theorems": [
    "C117_like_the_class",
    "C117_distances",
    "C117_every_vertex",
    "C117_primes"
   ],
   "note": "The function of the documentation is modelled on top of the model of TraversalShortestPaths. What next_edges_inf returns is an iterator (the docstring says iterable, but the code calls next on it). Lengths of the prime graph are doubled, see C114; the example gives the output of the documentation."
  },
  {
   "property": "C118",
   "status": "proved",
   "theorems": [
    "C118_rounded_length",
    "C118_float_length",
    "C118_float_path",
    "C118_float_exact"
   ],
   "note": "The factor two is the one of C70: C32 shows that the returned length can exceed the optimum also without rounding. The general theorem is about every number type whose sum is commutative, monotone and has a neutral zero; floats (C96) are an instance."
  },
  {
   "property": "C119",
   "status": "partial",
   "theorems": [
    "C119_float_infinite_branching_refuted",
    "C119_float_infinite_branching_partial",
    "C119_float_like_exact_partial"
   ],
   "note": "The claim is false for Python's floats: the code computes the length of an edge of its internal graph as a rounded difference of distances, and TraversalShortestPaths adds it again with rounding, so a vertex can be reported twice, in descending order, and with a distance above the weight of an edge from the start vertex. Proved: the claim, with exact distances, if for all edges the traversal takes from iterators the exact sum fits into the precision. Missing: bounds for errors of reports when sums do not fit."
  },
  {
   "property": "C120",
   "status": "proved",
   "theorems": [
    "C120_breadth_first_search_options",
    "C120_breadth_first_search_fail_silently",
    "C120_shortest_path_search_options",
    "C120_shortest_path_search_fail_silently"
   ],
   "note": "Two searches are compared pass by pass; no assumption about the graph, the weights or the gear is needed. If a start vertex is a goal vertex, a path of one vertex is returned also without build_path (lines 248-255 of breadth_first.py), with all options."
  },
  {
   "property": "C121",
   "status": "proved",
   "theorems": [
    "C121_infinite_branching_options"
   ],
   "note": "Together with C101 and C120, the options of all strategies are covered."
  },
  {
   "property": "C122",
   "status": "proved",
   "theorems": [
    "C122_breadth_first_order",
    "C122_neighbors_then_depth_order",
    "C122_shortest_paths_order",
    "C122_minimum_spanning_tree_order",
    "C122_bidirectional_breadth_first_order",
    "C122_a_star_order",
    "C122_infinite_branching_order"
   ],
   "note": "The traversals are compared when they have ended. BSearchShortestPath is not part of the claim: it can return a non-shortest path (C32)."
  },
  {
   "property": "C123",
   "status": "proved",
   "theorems": [
    "C123_breadth_first_grows",
    "C123_neighbors_then_depth_grows",
    "C123_shortest_paths_grow",
    "C123_bidirectional_breadth_first_grows"
   ],
   "note": "The second traversal has ended, the first one may be at any place. For A*, depth first search and minimum spanning trees, nothing is stated."
  }
 ]
}