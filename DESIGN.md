# Formal model of nographs in Rocq (Coq 8.16.1)

This file says what of /repo (HeWeMel/nographs) is modelled, how each property of
properties.jsonl is stated and proved, and what is trusted. The development is in
rocq/theories; only the standard library of Coq is used.

## 1. Style of the model

* **Generators are step machines.** A traversal is a Python generator with
  state attributes. It is modelled as `step : state -> step_result`, where a step
  emits zero or more *reports* (the yielded vertex together with the attribute
  values visible at that moment) and goes on, ends, or raises. `run step n s`
  performs at most n steps (`Machine.v`). A theorem about `run step n s` for all n is a
  theorem about every prefix of the iteration, so infinite graphs and partially
  consumed iterators are covered; "still running" is an explicit outcome and
  never counts as success. Termination and liveness are stated separately (exists n).
* **User functions are Section variables** (neighbor function, heuristic,
  vertex_to_id), i.e., theorems quantify over them. They are pure functions of the
  vertex. What a neighbor function could read of the traversal (depth, distance, ...)
  is recorded in the states (`*_calls`), and the theorems state it.
* **Vertex identity.** Vertices `V` and ids `I` are different types, `vid : V -> I`.
  The specification graph is a relation `E` on ids; the hypothesis linking the
  neighbor function to it is `presents` (TraversalSpec.v) resp. `presents_weighted`
  (WeightSpec.v): the ids of the neighbors of `u` are exactly the `j` with `E (vid u) j`.
  For `vertex_as_id` this is no restriction at all.
* **Gears are records with laws.** Sets of ids, predecessor maps and distance
  maps are abstract records (`VSet`, `PMap`, `DMap` in GearSpec.v) with the laws the
  traversals use. GearModel.v models the concrete collections (hash based, byte sequences,
  bit packed sequences, sequences with sentinel), GearProofs.v proves the laws,
  and InlineModel.v/InlineProofs.v show that the code that the traversals use to access the
  sequences directly does the same as the methods of the collections. Every
  theorem about a traversal therefore holds for every gear (exceptions: `marks_gaps`, see C79, and C82).
* **Weights** are an abstract ordered domain (`Weight.v`) with only the laws that an
  algorithm needs (total order, monotone and inflationary addition; not
  associativity, so rounded addition qualifies for Dijkstra). Where exact sums
  are needed, `exact_addition` is a hypothesis. Integers, with and without infinity, are instances.
* **heapq** is modelled by insertion into a list that is sorted by the compared
  tuple prefix (key, unique number). Since the unique numbers differ, the minimum
  is unique and any correct heap pops the same element.
* Exceptions are values of an inductive type (`exn` in Common.v). Python ints are `Z`/`nat`/`N`.
* **Independence of the statements.** Property theorems are in files Prop*.v that contain nothing
  else (but examples); they are about runs of the machines, i.e. what the user
  sees, and about the vocabulary of *Spec.v files (walks, distances, spanning trees, tours, ...), which
  do not refer to the model. Beside the theorems, examples show concrete cases that meet their hypotheses.
* **Refutations.** If the code does not have a property that its documentation states or that a user expects, the
  theorem has the suffix `_refuted` and exhibits a run of the model that violates it.

## 2. Files

| file(s) of the model | code |
|---|---|
| Machine, MachineMore, MachineSim | generators: runs, invariants, simulation |
| Common | exceptions, calculation limit, configuration checks (`utils.py`, `base.py`, `traversal*.py`) |
| Spec, TraversalSpec, WeightSpec, *Spec | specification vocabulary |
| BFSModel; NTDModel; DFSModel; TopoModel | `without_weights/breadth_first.py`; `neighbors_then_depth.py`; `depth_first.py`, `depth_first_enum_types.py`; `topological_sort.py` |
| DijkstraModel; AStarModel; MSTModel; InfModel | `with_weights/shortest_paths.py`; `a_star.py`; `minimum_spanning_tree.py`; `extra_infinite_branching.py` |
| BiBFSModel; BiSPModel | `bidirectional_search/breadth_first.py`; `shortest_path.py` |
| GoModel | `traversal.py` (go_to, go_for_vertices_in), go_for_depth_range, go_for_distance_range |
| PathsModel; PathModel | `_paths.py`; `_path.py` |
| GearModel, GearHistoryModel, InlineModel | `_gear_collections.py`, collections of `_gears.py`; the access code that tpl/ generates into the traversals |
| DirectModel | the step functions with checks for unhandled accesses beyond the end of a sequence |
| StartModel | from start_vertex, start_vertices (collection or iterator) to the initial states (`traversal.py`, `traversal_without_weights.py`, `start_from` of the strategies) |
| RangeModel | `max_value_for_integer_array_type_code`, infinity of gears with C integers (`_gears.py`) |
| HistoryModel | interleaved use of next, go_to and the iterators of go_for_vertices_in, go_for_depth_range, go_for_distance_range (`traversal.py`, `breadth_first.py`, `traversal_with_weights.py`); the traversal is not restarted |
| AwareModel | calls of the neighbor function in the traversals: functions that look at the traversal state, keep a state, or raise exceptions |
| SeriesModel | programs that give one set `already_visited` to several traversals, one after the other |
| NestedModel | one traversal object with several generators: `start_from` and `__iter__` called again while iterators of earlier starts are in use (`traversal.py:102-177` and the attributes of the strategies) |
| DistSeriesModel | several `TraversalShortestPaths`, one after the other, with the same mapping as option `known_distances` (`shortest_paths.py:187-205, 262`) |
| LazyModel | answers of the neighbor function that are iterators, read edge by edge while the traversal goes on (`breadth_first.py:307`, `neighbors_then_depth.py:324`, `shortest_paths.py:315`) |
| (ReadSpec, BiReadSpec) | vocabulary for C94, C95: which vertices have been read |
| BiSPRoundSpec | specification only: lengths of paths, summed up with rounding from both ends |
| FloatModel (FloatSpec, FloatIEEE) | Python's floats as weights: rounding, sum, comparison; agreement with Coq.Floats.SpecFloat |
| StoreModel | TraversalShortestPaths with distances that are rounded when stored (arrays of C floats) |
| AgreeSpec | specification for C104 (the same graph with and without weights) |
| WorkBiSpec | specification for C105 (vertices asked in each direction, part of the graph that matters) |
| SCCSpec | specification for C106 (strongly connected component) |
| SCCModel | docs/source/reduction_of_other_problems.rst:680-718 (program for strongly connected components), on top of DFSModel |
| ArtSpec | specification for C107, C108 (articulation point, biconnected component) |
| ArtModel | docs/source/reduction_of_other_problems.rst:844-918, 943-947 (programs for articulation points and biconnected components), on top of DFSModel |
| DemoTspModel | docs/source/reduction_of_other_problems.rst:146-176 (demo_traveling_salesman), on top of DijkstraModel |
| AwareBiModel | a_star.py:335-371, bidirectional_search/breadth_first.py:259-286, bidirectional_search/shortest_path.py:411-445: calls of neighbor functions that look at the search, on top of AStarModel, BiBFSModel, BiSPModel |
| LongestModel | docs/source/reduction_of_other_problems.rst:546-573 (program for longest paths), on top of DFSModel |
| PruneModel, IddfsModel | docs/source/search_aware_graphs.rst:323-340 (program for iterative deepening), generator.throw(StopIteration()) in depth_first.py:905-915, on top of DFSModel |
| SieveModel, InfAwareModel, InfLazyModel, PrimesModel | docs/source/search_aware_graphs.rst:132-158, docs/source/reduction_of_other_problems.rst:441-475 (programs for primes), extra_infinite_branching.py:193-225 with neighbor functions that use t.distance |
| IddfsOneModel | docs/source/search_aware_graphs.rst:275-301 (iterative_deepening_dfs as a single search; the start vertices are a list, which can be read again and again) |
| ReduceModel | docs/source/reduction_of_other_problems.rst:265-269, 312-356, 365, 366 (traversal_shortest_paths_inf_branching_sorted and primes with it) |
| InfNumModel | with_weights/extra_infinite_branching.py:159-266 for numbers of any kind (without build_paths and store_distances) |
| SignedFloat | Python's float: sum, difference and comparison, without NaN |
| BiOptSpec | specification for C120: same vertices of paths, same calls, a failure turned into a result |
| WorkSpec, OptSpec, MSTMoreSpec | specifications for C100 (work per vertex and edge), C101 (what a report shows besides paths), C102 and C103 (measures and heaviest edges) |
| TspModel | `_extra_tsp.py` |
| EdgeModel | `_extra_edge_gadgets.py` |
| PositionModel, ArrayModel | `_extra_matrix_gadgets.py` |
| *Proofs, *More, *Paths, *Limit*, *Sim, *Tree, ... | proofs only |
| Prop* | property theorems and examples |

## 3. Properties: what is modelled, how it is proved

Status "proved": the theorems say the whole property. Status "partial": the theorems say less; what is missing, or the counterexample that
refutes the property for the code, is named in MANIFEST.json and in section 6.

| id | property | model | how it is proved | status | theorems |
|---|---|---|---|---|---|
| C01 | Breadth first search reports exactly the reachable vertices, each once | BFSModel (start, loop, paths, depth); NTDModel for C04 | invariant over steps, level argument; measure for liveness | proved | `C01_bfs_reports_reachable_once` |
| C02 | Breadth first search reports minimal depths in ascending order | BFSModel (start, loop, paths, depth); NTDModel for C04 | invariant over steps, level argument; measure for liveness | proved | `C02_bfs_depth_minimal` |
| C03 | Breadth first search builds real and shortest paths | BFSModel (start, loop, paths, depth); NTDModel for C04 | invariant over steps, level argument; measure for liveness | proved | `C03_bfs_paths` |
| C04 | already_visited excludes exactly the preloaded vertices | BFSModel (start, loop, paths, depth); NTDModel for C04 | invariant over steps, level argument; measure for liveness | proved | `C04_bfs_already_visited`, `C04_ntd_already_visited`, `C09_dfs_reports_reachable_once`, `C10_dfs_tree`, `C17_topological_order` |
| C05 | calculation_limit bounds the number of vertices read from the graph | all traversals and searches | simulation of the run with limit by the run without (LimitSim, LimitAll, Limit2, *Limit) | proved | `C05_bfs_calculation_limit`, `C05_dijkstra_calculation_limit`, `C05_astar_calculation_limit`, `C05_mst_calculation_limit`, `C05_ntd_calculation_limit`, `C05_dfs_calculation_limit`, `C05_topo_calculation_limit`, `C05_bidirectional_bfs_calculation_limit`, `C05_bidirectional_shortest_path_calculation_limit`, `C05_infinite_branching_calculation_limit` |
| C06 | go_for_depth_range reports exactly the vertices of the depth range | BFSModel (start, loop, paths, depth); NTDModel for C04 | invariant over steps, level argument; measure for liveness | proved | `C06_depth_range` |
| C07 | TraversalNeighborsThenDepth reports exactly the reachable vertices, each once | NTDModel | invariant over steps | proved | `C07_ntd_reports_reachable_once` |
| C08 | TraversalNeighborsThenDepth paths and depth agree | NTDModel | invariant over steps | proved | `C08_ntd_paths_and_depth` |
| C09 | Depth first search enters exactly the reachable vertices, each once | DFSModel (both loops) | refinement to a log of events of a recursive depth first search (DFSSpec), invariants; witnesses for refutations | proved | `C09_dfs_reports_reachable_once` |
| C10 | Depth first search visits in depth first order along a tree | DFSModel (both loops) | refinement to a log of events of a recursive depth first search (DFSSpec), invariants; witnesses for refutations | proved | `C10_dfs_tree`, `C10_dfs_with_and_without_trace` |
| C11 | Depth first trace is the path from the start vertex to the reported vertex | DFSModel (both loops) | refinement to a log of events of a recursive depth first search (DFSSpec), invariants; witnesses for refutations | proved | `C11_dfs_trace` |
| C12 | Depth first enter and leave events are balanced and nested | DFSModel (both loops) | refinement to a log of events of a recursive depth first search (DFSSpec), invariants; witnesses for refutations | proved | `C12_dfs_nested` |
| C13 | Depth first non-tree edges are classified correctly | DFSModel (both loops) | refinement to a log of events of a recursive depth first search (DFSSpec), invariants; witnesses for refutations | proved | `C13_dfs_edge_kinds` |
| C14 | Depth first mode ALL_PATHS enumerates exactly the simple paths | DFSModel (both loops) | refinement to a log of events of a recursive depth first search (DFSSpec), invariants; witnesses for refutations | proved | `C14_dfs_all_paths` |
| C15 | Depth first mode ALL_WALKS enumerates the walks | DFSModel (both loops) | refinement to a log of events of a recursive depth first search (DFSSpec), invariants; witnesses for refutations | proved | `C15_dfs_all_walks` |
| C16 | Depth first labels belong to the edges of the trace and of the paths | DFSModel (both loops) | refinement to a log of events of a recursive depth first search (DFSSpec), invariants; witnesses for refutations | partial | `C16_dfs_labels_partial`, `C16_dfs_labels_refuted` |
| C17 | Topological sort reports dependencies first | TopoModel | invariant; witnesses for refutations | proved | `C17_topological_order` |
| C18 | Topological sort detects exactly the cyclic inputs | TopoModel | invariant; witnesses for refutations | proved | `C18_cycle_error_means_cycle`, `C18_topo_decides_cycle` |
| C19 | Topological sort provides a real cyclic path on failure | TopoModel | invariant; witnesses for refutations | partial | `C19_cycle_from_start_partial`, `C19_cycle_from_start_refuted` |
| C20 | Dijkstra reports minimal distances in non-decreasing order | DijkstraModel over abstract weights | Dijkstra invariant on settled vertices and heap | proved | `C20_dijkstra_distance_minimal` |
| C21 | Dijkstra reports exactly the reachable vertices, each once | DijkstraModel over abstract weights | Dijkstra invariant on settled vertices and heap | proved | `C21_dijkstra_reports_reachable_once` |
| C22 | Dijkstra builds real paths that realise the distance | DijkstraModel over abstract weights | Dijkstra invariant on settled vertices and heap | proved | `C22_dijkstra_paths` |
| C23 | Dijkstra distances collection | DijkstraModel over abstract weights | Dijkstra invariant on settled vertices and heap | proved | `C23_dijkstra_keep_distances` |
| C24 | Distances never silently reach the infinity of the gear | DijkstraModel over abstract weights | Dijkstra invariant on settled vertices and heap | proved | `C24_dijkstra_overflow`, `C24_astar_overflow`, `C24_bidirectional_shortest_path_overflow` |
| C25 | go_for_distance_range reports exactly the vertices of the distance range | DijkstraModel over abstract weights | Dijkstra invariant on settled vertices and heap | proved | `C25_dijkstra_distance_range` |
| C26 | A* reports the goal with the length of a shortest path | AStarModel | invariant; witnesses for refutations | proved | `C26_astar_goal_optimal` |
| C27 | A* with a consistent heuristic settles every vertex once and optimally | AStarModel | invariant; witnesses for refutations | proved | `C27_astar_consistent` |
| C28 | Minimum spanning tree: the reported edges form a spanning tree | MSTModel | invariant, exchange (cut) argument; witness for refutation | proved | `C28_mst_spanning_tree` |
| C29 | Minimum spanning tree: the total weight is minimal | MSTModel | invariant, exchange (cut) argument; witness for refutation | proved | `C29_mst_minimal` |
| C30 | Infinite branching search equals Dijkstra | InfModel (on top of DijkstraModel) | lock step with the internal search, translation of walks between both graphs | proved | `C30_distances`, `C30_progress`, `C30_paths`, `C30_stored_distances` |
| C31 | Bidirectional breadth first search returns the exact distance | BiBFSModel (two BFS machines) | invariant on both level structures; witness | proved | `C31_bidirectional_bfs_exact`, `C31_bidirectional_bfs_path` |
| C32 | Bidirectional shortest path search returns the length of a shortest path | BiSPModel | invariant on both searches; approximation bound; witness | partial | `C32_bidirectional_shortest_path_refuted`, `C32_bidirectional_shortest_path_exact_partial` |
| C33 | Bidirectional shortest path search returns a real path and fails only without path | BiSPModel | invariant on both searches; approximation bound; witness | proved | `C33_bidirectional_shortest_path_real`, `C33_bidirectional_shortest_path_path` |
| C34 | Traveling salesman returns a tour with its true length | TspModel | correspondence of states of the search and partial tours; approximation bound; witnesses | proved | `C34_tour`, `C34_outcome` |
| C35 | Traveling salesman finds an optimal tour | TspModel | correspondence of states of the search and partial tours; approximation bound; witnesses | partial | `C35_finds_existing_tour_refuted`, `C35_shortest_tour_refuted`, `C35_near_optimal_partial`, `C35_twice_shortest_partial`, `C35_equal_weights_partial` |
| C36 | Weight changes for negative weights and longest tours are undone exactly | TspModel | correspondence of states of the search and partial tours; approximation bound; witnesses | proved | `C36_negative_weights`, `C36_find_longest` |
| C37 | Paths container views agree | PathsModel | induction over chains of predecessors | proved | `C37_paths_views_agree` |
| C38 | Path object views agree | PathModel | induction | proved | `C38_path_views_agree` |
| C39 | go_to returns the first report of the vertex | GoModel | induction over the stream of reports; witness | proved | `C39_go_to` |
| C40 | go_for_vertices_in finds all requested vertices | GoModel | induction over the stream of reports; witness | proved | `C40_go_for_vertices_in` |
| C41 | Sequence based vertex sets behave as sets | GearModel, GearHistoryModel | refinement to mathematical sets and maps for all histories of operations | proved | `C41_sets_behave_as_sets` |
| C42 | Sequence based vertex mappings behave as mappings | GearModel, GearHistoryModel | refinement to mathematical sets and maps for all histories of operations | proved | `C42_mappings_behave_as_maps` |
| C43 | The result of a traversal does not depend on the gear | all traversals; InlineModel | lock step simulation of runs with different gears; equality of inlined access and methods | proved | `C43_bfs_gear_independent`, `C43_dijkstra_gear_independent`, `C43_astar_gear_independent`, `C43_mst_gear_independent`, `C43_ntd_gear_independent`, `C43_dfs_gear_independent`, `C43_topo_gear_independent`, `C43_bidirectional_bfs_gear_independent`, `C43_bidirectional_shortest_path_gear_independent`, `C43_infinite_branching_gear_independent` |
| C44 | Vertex identity by vertex_to_id | all traversals | lock step simulation of the run with vertices and the run with ids; for depth first search with invariants that tell where start vertices can be met again; witness | proved | `C44_bfs_vertex_to_id`, `C44_dijkstra_vertex_to_id`, `C44_astar_vertex_to_id`, `C44_mst_vertex_to_id`, `C44_ntd_vertex_to_id`, `C44_dfs_vertex_to_id`, `C44_topo_vertex_to_id`, `C44_bidirectional_bfs_vertex_to_id`, `C44_bidirectional_shortest_path_vertex_to_id` |
| C45 | Edge gadgets represent exactly the given edges | EdgeModel | induction over edges; witness | proved | `C45_adapt_edge_iterable`, `C45_edge_iterable_graph`, `C45_adapt_edge_index_mapping`, `C45_adapt_edge_index_sequence` |
| C46 | Position.wrap_to_cuboid and is_in_cuboid | PositionModel | algebraic laws, induction over coordinates | proved | `C46_wrap_to_cuboid`, `C46_is_in_cuboid`, `C46_wrap_and_move` |
| C47 | Position.moves and neighbors | PositionModel | algebraic laws, induction over coordinates | proved | `C47_moves`, `C47_neighbors`, `C47_neighbors_symmetric` |
| C48 | Array access laws | ArrayModel (objects and references) | induction over dimensions; separation of rows; witness | proved | `C48_set_get`, `C48_negative_coordinates`, `C48_mutable_copy`, `C48_items`, `C48_findall`, `C48_size` |
| C49 | is_tree only removes bookkeeping | traversals with option is_tree | simulation of both options on trees | proved | `C49_dfs_is_tree`, `C49_topo_is_tree`, `C49_bfs_is_tree`, `C49_ntd_is_tree`, `C49_dijkstra_is_tree`, `C49_astar_is_tree` |
| C50 | Configuration errors are detected | Common, start_from of the strategies | case analysis | proved | `C50_configuration_errors`, `C50_dfs_options`, `C50_bidirectional_configuration_errors` |
| C51 | A depth range costs only one further vertex | BFSModel, GoModel | witness | partial | `C51_depth_range_consumes_one_refuted` |
| C52 | go_for_vertices_in finds all vertices also if vertices are reported repeatedly | GoModel | induction over the stream of reports; witness | partial | `C52_go_for_vertices_in_repeated_refuted` |
| C53 | known_distances restricts Dijkstra to improvements | DijkstraModel over abstract weights | Dijkstra invariant on settled vertices and heap | proved | `C53_dijkstra_known_distances` |
| C54 | A* with any heuristic covers the graph and stores true distances | AStarModel | invariant; witnesses for refutations | proved | `C54_astar_any_heuristic` |
| C55 | A* with consistent heuristics visits each vertex once, also with infinite estimations | AStarModel | invariant; witnesses for refutations | partial | `C55_astar_infinite_estimates_refuted` |
| C56 | A* reports vertices ordered by path length | AStarModel | invariant; witnesses for refutations | partial | `C56_astar_order_refuted` |
| C57 | Minimum spanning tree traversal prefers edges found more recently | MSTModel | invariant, exchange (cut) argument; witness for refutation | partial | `C57_mst_tie_breaker_refuted` |
| C58 | TraversalNeighborsThenDepth goes on at the vertex reported last | NTDModel | invariant over steps | proved | `C58_ntd_order` |
| C59 | skip_expanding_entered_vertex prunes exactly the edges of the entered vertex | DFSModel (both loops) | refinement to a log of events of a recursive depth first search (DFSSpec), invariants; witnesses for refutations | proved | `C59_dfs_skip_expanding` |
| C60 | Event FORWARD_OR_CROSS_EDGE is reported if requested | DFSModel (both loops) | refinement to a log of events of a recursive depth first search (DFSSpec), invariants; witnesses for refutations | partial | `C60_dfs_forward_or_cross_refuted` |
| C61 | Event CROSS_EDGE is reported for cross edges only | DFSModel (both loops) | refinement to a log of events of a recursive depth first search (DFSSpec), invariants; witnesses for refutations | partial | `C61_dfs_cross_without_back_refuted` |
| C62 | Event ENTERING_START is reported for entering a start vertex only as start vertex | DFSModel (both loops) | refinement to a log of events of a recursive depth first search (DFSSpec), invariants; witnesses for refutations | partial | `C62_dfs_walks_start_event_refuted` |
| C63 | ALL_PATHS with several start vertices builds the paths of the traces | DFSModel (both loops) | refinement to a log of events of a recursive depth first search (DFSSpec), invariants; witnesses for refutations | partial | `C63_dfs_all_paths_paths_refuted` |
| C64 | Requesting fewer depth first events only hides reports | DFSModel (both loops) | refinement to a log of events of a recursive depth first search (DFSSpec), invariants; witnesses for refutations | proved | `C64_dfs_fewer_events` |
| C65 | Topological sort with several start vertices | TopoModel | invariant; witnesses for refutations | partial | `C65_order_of_several_starts_partial`, `C65_order_of_several_starts_refuted` |
| C66 | Topological sort detects cycles through several start vertices | TopoModel | invariant; witnesses for refutations | partial | `C66_cycle_through_starts_refuted` |
| C67 | Topological sort reports each vertex once, however often it is given as start vertex | TopoModel | invariant; witnesses for refutations | partial | `C67_start_given_twice_refuted` |
| C68 | Topological sort: depth and paths | TopoModel | invariant; witnesses for refutations | proved | `C68_topo_depth_and_paths` |
| C69 | Bidirectional breadth first search: paths when several vertices have the same id | BiBFSModel (two BFS machines) | invariant on both level structures; witness | partial | `C69_bidirectional_path_same_ids_refuted` |
| C70 | Bidirectional shortest path search: the result is at most twice the optimum | BiSPModel | invariant on both searches; approximation bound; witness | proved | `C70_bidirectional_shortest_path_at_most_double` |
| C71 | Neighbor function of an edge index given as Sequence: vertices that are no index | EdgeModel | induction over edges; witness | partial | `C71_edge_index_negative_vertex_refuted` |
| C72 | Array neighbor functions | ArrayModel (objects and references) | induction over dimensions; separation of rows; witness | proved | `C72_next_vertices_from_forbidden`, `C72_next_edges_from_cell_weights`, `C72_array_neighbors_symmetric` |
| C73 | Array.size of arrays without cells | ArrayModel (objects and references) | induction over dimensions; separation of rows; witness | partial | `C73_size_of_empty_array_refuted` |
| C74 | Position arithmetic and Manhattan distance | PositionModel | algebraic laws, induction over coordinates | proved | `C74_manhattan_metric`, `C74_manhattan_moves`, `C74_arithmetic` |
| C75 | Infinite branching: lazy reading of edges | InfModel (on top of DijkstraModel) | lock step with the internal search, translation of walks between both graphs | proved | `C75_lazy_reading`, `C75_distance_attribute` |
| C76 | Infinite branching: the calculation limit of a complete traversal | InfModel (on top of DijkstraModel) | lock step with the internal search, translation of walks between both graphs | proved | `C76_limit_is_vertices_plus_edges` |
| C77 | Infinite branching: the calculation limit bounds the vertices and edges read so far | InfModel (on top of DijkstraModel) | lock step with the internal search, translation of walks between both graphs | partial | `C77_limit_bounds_vertices_and_edges_refuted` |
| C78 | Option is_tree together with known_distances | DijkstraModel | witness | partial | `C78_tree_with_known_distances_refuted` |
| C79 | Depth first search: paths with array based gears | DFSModel with the array based mapping of GearModel | witness; the hypothesis marks_gaps of the positive theorems names the gears that are right | partial | `C79_dfs_array_gear_paths_refuted` |
| C80 | Gears with sequences: specialised code is right | InlineModel (code of the strategies for sequences), specification in InlineSpec | case analysis on position and bit; equality with the operations of GearModel | proved | `C80_sequence_set_code`, `C80_sequence_map_code` |
| C81 | No internal errors with any gear | DirectModel: the step functions with a check before accesses without handler | invariants: ids in the heap, resp. on the trace or visited, are inside of the sequences; case analysis of raised errors; witness | proved | `C81_dijkstra_no_internal_error`, `C81_a_star_no_internal_error`, `C81_bsearch_shortest_path_no_internal_error`, `C81_topological_sort_no_internal_error`, `C81_dfs_no_internal_error` |
| C82 | No internal errors: several start vertices, already visited vertices | DirectModel: the step functions with a check before accesses without handler | invariants: ids in the heap, resp. on the trace or visited, are inside of the sequences; case analysis of raised errors; witness | partial | `C82_topological_sort_start_vertices_refuted`, `C82_dfs_already_visited_refuted` |
| C83 | Start vertices given as iterator | StartModel: iterables that can be read once, and who reads them | case analysis of options: the initial state equals that for a list; witness | proved | `C83_start_vertices`, `C83_infinite_branching`, `C83_bsearch_shortest_path`, `C83_bsearch_breadth_first` |
| C84 | Start vertices given as iterator: infinite branching, bidirectional breadth first search | StartModel: iterables that can be read once, and who reads them | case analysis of options: the initial state equals that for a list; witness | partial | `C84_infinite_branching_iterator_refuted`, `C84_bsearch_breadth_first_iterator_refuted` |
| C85 | Stored distances stay in the range of the array | RangeModel: integers with the maximal value of the array type as infinity; Dijkstra, A*, BSearchShortestPath models | invariant: all stored distances are between zero and infinity; arithmetic for sizes of C types | proved | `C85_range_fits_array`, `C85_dijkstra_range`, `C85_a_star_range`, `C85_bsearch_shortest_path_range` |
| C86 | Several ways to take vertices from one traversal | HistoryModel: one generator shared by several iterators; entries of the history | induction over the operations with an invariant that relates iterators to the operations that created them | proved | `C86_each_report_once`, `C86_operations_deliver_what_they_seek`, `C86_exhausted`, `C86_own_exception_once`, `C86_vertices_iterator_bound`, `C86_fail_silently`, `C86_missing_vertices`, `C86_passes`, `C86_breadth_first_history` |
| C87 | Depth first search in mode ALL_WALKS compares ids with the start vertex | all traversals | lock step simulation of the run with vertices and the run with ids; for depth first search with invariants that tell where start vertices can be met again; witness | partial | `C87_dfs_all_walks_vertex_to_id_refuted` |
| C88 | Neighbor functions that look at the traversal, keep a state, or fail | AwareModel: runs with a function of pass number, state and vertex that answers with edges or an exception, for the step functions of six strategies | induction over the passes: a table of the answers is built; a pass depends on the answers for the vertices it asks for only, and no id is asked for twice (invariants per strategy); C01, C02, C20 carried over | proved | `C88_bfs_search_aware`, `C88_ntd_search_aware`, `C88_dfs_search_aware`, `C88_dfs_without_trace_search_aware`, `C88_topo_search_aware`, `C88_mst_search_aware`, `C88_dijkstra_search_aware`, `C88_bfs_reports_in_graph_of_answers`, `C88_dijkstra_distances_in_graph_of_answers` |
| C89 | Traversals that share one set already_visited | SeriesModel: sequences of traversals of three strategies that get the set as the one before has left it | each strategy relates the sets before and after (from the invariants of C01, C07, C12); induction over the sequence with closure arguments on reachability | proved | `C89_series_reports`, `C89_series_visited`, `C89_series_complete` |
| C90 | A traversal object can be started again at any time | NestedModel | An object with attributes and a list of generators, one per start; programs are arbitrary sequences of starts and passes of generators; the state of a generator gets the attributes of the object before a pass, and the object gets them afterwards. Proof (NestedProofs): a relation 'same state except for the attributes of the object' is kept by each pass, and equal reports (seen through a view) are given; NestedOwn: this holds for each strategy, by case analysis of its pass. Restart: with only the newest generator in use, the attributes are those of a single traversal, by induction on the number of passes. | proved | `C90_nested_breadth_first`, `C90_nested_neighbors_then_depth`, `C90_nested_depth_first`, `C90_nested_topological_sort_of_tree`, `C90_nested_shortest_paths`, `C90_nested_a_star`, `C90_nested_minimum_spanning_tree`, `C90_nested_infinite_branching`, `C90_restart_breadth_first`, `C90_restart_neighbors_then_depth`, `C90_restart_depth_first`, `C90_restart_topological_sort` |
| C91 | Nested loops over one traversal object: depth, event, and topological sort | NestedModel | Refuted in the model of C90 by evaluation of concrete nested loops. | partial | `C91_breadth_first_depth_refuted`, `C91_neighbors_then_depth_depth_refuted`, `C91_depth_first_depth_refuted`, `C91_depth_first_event_refuted`, `C91_topological_sort_twice_refuted`, `C91_topological_sort_lost_refuted` |
| C92 | Traversals that share one mapping of distances | DistSeriesModel | Each traversal of the series gets the mapping as the one before has left it. Proof (DistSeriesProofs): from the invariant of C20 at the end of a traversal with initial distances: the stored distance of a settled vertex is the least improving sum, others keep theirs; so the edges stay relaxed (closed) and each finite distance is the weight of a walk; both together make the mapping tell distances. Induction over the series. | proved | `C92_series_of_known_distances`, `C92_series_left_early` |
| C93 | Neighbor functions that return iterators, and graphs that change during the traversal | LazyModel | A pass that reads an edge asks an arbitrary function of pass number, state and vertex; the edges are logged. Proof (LazyProofs): looking ahead in a run with n passes gives the complete answer of each call in hindsight, so the run is one of the model of C88 with an answer per pass number; C88 gives the table of answers, and since each vertex is asked once, the table is the log. LazyInst instantiates for three strategies. | proved | `C93_bfs_lazy_answers`, `C93_ntd_lazy_answers`, `C93_dijkstra_lazy_answers`, `C93_bfs_reports_in_graph_of_read_edges`, `C93_dijkstra_distances_in_graph_of_read_edges` |
| C94 | Traversals are lazy: which vertices are read, and when | BFSModel, NTDModel, DFSModel, DijkstraModel, AStarModel, MSTModel | The states record the calls of the neighbor function. Proof (ReadProofs, ReadDFS): invariants that relate the recorded calls, the agenda (queue, stack, heap) and the reports so far; the last pass is examined separately for calculation_limit. | proved | `C94_breadth_first_reads`, `C94_breadth_first_reads_smaller_depths`, `C94_neighbors_then_depth_reads`, `C94_depth_first_reads`, `C94_shortest_paths_reads`, `C94_a_star_reads`, `C94_minimum_spanning_tree_reads` |
| C95 | A bidirectional breadth first search reads only half of the way | BiBFSModel | Proof (BiBFSRead): on top of the invariant of C31: the two depths differ by the lag of the second direction; a vertex is read at the depth of its direction, and since nothing is visited in both directions, each path is longer than the sum of the completed depths. | proved | `C95_bidirectional_bfs_reads_half` |
| C96 | Floats as weights: errors of distances and paths are bounded | FloatModel | Non-negative floats are integers (multiples of the smallest float) with rounding to a number of bits, ties to even; they are an instance of the weights of C20. Proof (FloatModel, FloatProofs): rounding is monotone, idempotent, and changes a number by at most one part in 2^prec; induction over walks. FloatIEEE proves that numbers, comparison and sum are those of Coq.Floats.SpecFloat. | proved | `C96_floats_are_ieee`, `C96_float_distances_nearly_minimal`, `C96_float_paths_nearly_shortest`, `C96_float_distances_exact` |
| C97 | Gears that store distances as C floats change nothing | StoreModel | Dijkstra's algorithm with a function that is applied when a distance is stored; refutations by computation (0.7, resp. 0.1); the run is the same as in DijkstraModel if the function is the identity on all sums of a distance and a weight (Proof: StoreProofs, with the invariant of C20). | partial | `C97_cfloat_gear_misses_vertex_refuted`, `C97_cfloat_gear_repeats_vertex_refuted`, `C97_stored_distances_partial`, `C97_single_floats_partial` |
| C98 | A* with floats as weights: the first goal is nearly optimal | AStarModel, FloatModel | Proof (AStarRounded): an invariant for sums that are only commutative and monotone: each vertex with a finite distance is in the heap with its current guess, or its edges have been used. So each walk has a vertex in the heap before which all edges have been used; its guess bounds the guess of the reported vertex. AStarFloat adds the error bounds of FloatProofs. | proved | `C98_float_goal_nearly_optimal`, `C98_float_all_reported` |
| C99 | A* with a consistent heuristic and floats: each vertex is reported once, with the shortest path length | AStarModel, FloatModel | Refutations by computation, with a consistent and admissible heuristic. Positive part: the same invariant as for C98, with the reported vertex as only goal. | partial | `C99_float_astar_repeats_vertex_refuted`, `C99_float_astar_not_minimal_refuted`, `C99_float_first_report_partial` |
| C100 | The work of a traversal is linear in the part of the graph that it reads | WorkSpec and the models of the traversals | Proof (WorkProofs, WorkMore): a potential (entries of the queue, stack or heap, plus edges to be read in the current loop) falls with each pass, except that a call of the neighbor function pays for the edges it delivers; with C94 calls become reports, and with the uniqueness of reports (C01, C07, C09, C21, C27, C28) or calls (topological sort) the sum over a finite graph. | proved | `C100_breadth_first_work`, `C100_neighbors_then_depth_work`, `C100_depth_first_work`, `C100_topological_sort_work`, `C100_shortest_paths_work`, `C100_a_star_work`, `C100_minimum_spanning_tree_work` |
| C101 | Options for paths and additional information do not change what is reported | OptSpec and the models of the traversals | Proof: two runs proceed in lock step (OptSim, OptNTD; OptDFS from DFSCompare). keep_distances (OptKeep): the distance of a settled vertex lies between zero and the current distance, so both settings compare alike with later path lengths; heap entries of settled vertices are longer than the settled distance, or zero, because two entries of the same vertex with the same positive length cannot exist. | proved | `C101_breadth_first_options`, `C101_neighbors_then_depth_options`, `C101_depth_first_options`, `C101_topological_sort_options`, `C101_shortest_paths_options`, `C101_a_star_options`, `C101_minimum_spanning_tree_options` |
| C102 | Minimum spanning trees are minimal in every monotone measure, also with floats | MSTMoreSpec (total_measure, monotone), MSTSpec, MSTModel, FloatModel | Proof (MSTMore): from the exchange in C29, each reported edge weighs at most as much as an edge of the competing set that is used only once; sums of a monotone measure follow. | proved | `C102_mst_minimal_in_every_measure`, `C102_float_mst_minimal` |
| C103 | The heaviest edge on the way to a vertex is minimal in the paths of TraversalMinimumSpanningTree | MSTMoreSpec (only, not_heavier), MSTModel | Proof (MSTMore): when an edge was chosen, no lighter edge led out of the set of visited vertices; the vertices behind the edge in the tree were outside, so each walk to them has an edge that leads out and is at least as heavy. | proved | `C103_mst_heaviest_edge_minimal` |
| C104 | Different strategies agree about the same graph | AgreeSpec (no_weights, unweighted, unit_weights) and the models of the traversals | Proof (AgreeProofs): from the theorems about the single strategies; walks with and without weights correspond, distances are unique, and lists without repetition and with the same elements are permutations of each other. | proved | `C104_same_vertices`, `C104_depth_is_distance`, `C104_astar_is_dijkstra`, `C104_bidirectional_is_bfs` |
| C105 | The work of bidirectional searches and of infinite branching is linear in what is read | WorkSpec, WorkBiSpec (asked_forwards, asked_backwards, covered), BiBFSModel, BiSPModel, InfModel | Proof (WorkBi): the potentials of C100 for both directions; with C95 (vertices that are read lie within half of each way), C70 (no vertex beyond the found path is expanded) and C76 (each edge of a finite graph is read at most once) the sums over parts of the graph. | proved | `C105_bidirectional_breadth_first_work`, `C105_bidirectional_shortest_path_work`, `C105_infinite_branching_work` |
| C106 | The documented program for strongly connected components delivers exactly the components | SCCModel on top of DFSModel; SCCSpec | The program is a consumer of the reports of the depth-first search that changes the numbers of the traversal between two passes. Proof: Tarjan's algorithm along the log of C10 (SCCLog: an invariant for the stack, the numbers, the low links and the finished components; a vertex that is left as root closes a set that no edge leaves); SCCProofs shows that the traversal does not read the numbers, that the dictionaries hold the stack of SCCLog, and that no lookup fails. | proved | `C106_strongly_connected_components` |
| C107 | Articulation points with the documented program | ArtModel on top of DFSModel; ArtSpec | The program is a consumer of the reports of the depth-first search. Proof: the algorithm of Hopcroft and Tarjan along the log of C10 (ArtLog: an invariant for depths and low points; edges lead up or down the tree; the vertices below a closed child with a high low point are a closed set; from all other vertices there is a way to the start vertex around each vertex that is not reported), then the reports of all runs (ArtProofs). | proved | `C107_articulation_points` |
| C108 | Biconnected components with the documented program | ArtModel (bic_run), ArtSpec (biconnected, biconnected_component) | Refuted, by computation and closed sets of vertices (ArtExamples): the documented result itself, an inner vertex, a graph without articulation points. | partial | `C108_biconnected_components_documented_refuted`, `C108_biconnected_components_inner_refuted`, `C108_biconnected_components_missing_refuted` |
| C109 | The documented program for the traveling salesman problem returns an optimal tour | DemoTspModel on top of DijkstraModel; TspSpec (is_tour) | The states of the program form a weighted graph, so the theorems about TraversalShortestPaths apply. Proof (DemoTspProofs): the shape of chains of states by induction (the vertices to visit in some order, then vertex 0, then only vertex 0 again); paths do not contain equal neighbors, so the final state is reported with the number of vertices as depth; each tour is a chain, so the reported distance is minimal; the states are finite in number. | proved | `C109_demo_traveling_salesman` |
| C110 | Neighbor functions that look at the search, keep a state, or fail: A* and bidirectional searches | AwareBiModel: the vertices a pass of A* and of the bidirectional searches asks for, per direction | The general result of C88, with an id that contains the direction and with goodness of answers per id (consistency of estimations). Once per id: A* from the theorems C27, C54 and C94; bidirectional breadth first search since each side is a run of breadth first search; bidirectional shortest paths by an invariant on calls and heap entries of both sides. Same graph (AwareBiSame): answers that are completed by ordinary functions present the graph, and the run follows them or fails. | proved | `C110_astar_search_aware`, `C110_bidirectional_bfs_search_aware`, `C110_bidirectional_bfs_same_graph`, `C110_bidirectional_shortest_path_search_aware`, `C110_bidirectional_shortest_path_same_graph` |
| C111 | Documented program: the longest simple path between two vertices | LongestModel on top of DFSModel (the program decides at each report if it throws StopIteration); LongestSpec (simple paths and lengths) | Refuted by computation. Positive part: the decisions of the program are a list of decisions by report number, so the theorems about depth-first search with skipped expansions apply (C14). Proof (LongestProofs): invariant along the log (the current length is the length of the trace, the best path is the longest one of the entered paths to the goal); only the goal is pruned, so each simple path to the goal is entered; all labels that appear are labels of edges; an edge after a first edge that is a loop is safe (C16). Termination with a bound that does not depend on the decisions. | partial | `C111_longest_path_refuted`, `C111_longest_path_negative_refuted`, `C111_longest_path_partial` |
| C112 | Documented program: iterative deepening finds a shortest path | IddfsModel on top of PruneModel (a consumer that decides at each report if the vertex is expanded) and DFSModel; IddfsSpec (ways to goals) | Refuted for mode ALL_WALKS with cycles: for all numbers of rounds. Positive part: a run with decisions is a run of the model of depth-first search with these decisions by report number (PruneProofs), so its log theorems apply. Proof (IddfsProofs): entered positions are exactly the simple paths (or walks) up to the depth limit, since vertices that are not expanded have no children in the log; the first limit at which a goal is entered is the length of a shortest way, since a shortest way is simple; termination by a bound for logs that depends on the limit only. | partial | `C112_iterative_deepening_walks_refuted`, `C112_iterative_deepening_partial` |
| C113 | Documented program: primes by a search in a search-aware graph | SieveModel (neighbor function and filter of the program) on top of AwareModel and DijkstraModel | Proof (SieveProofs): a search whose neighbor function uses the distance of the expanded vertex equals the search in the fixed graph that results for the true distances (DijkstraPlain: an expanded vertex has its true distance); the distances of that graph are 2i for primes and 2i - 1 for others, by a potential argument (lower bound by induction over walks, upper bound by a prime divisor whose square is not above the number); liveness from C05; the bounded form uses that there is a prime above each bound (PrimesUpTo). | proved | `C113_sieve_yields_primes`, `C113_sieve_up_to` |
| C114 | Documented programs: primes and divisors by a search in an infinitely branching graph | PrimesModel on top of InfAwareModel (infinite branching, neighbor function sees the distance) and InfModel | Proof: ainf_is_inf (InfAwareProofs) reduces the search-aware search to one with fixed edges; PrimesProofs computes the distances by walks; order, liveness, no end and no error from the theorems about InfModel (C30, C75); the last edge of the path of a number that is not prime cannot come from the number before it, since then the path would be too long, so it comes from a divisor. | proved | `C114_primes_and_others`, `C114_every_number`, `C114_up_to`, `C114_divisors` |
| C115 | Infinite branching with neighbor functions that look at the traversal | InfLazyModel: InfModel with answers that depend on the state of the traversal when they are read | Proof (InfLazyProofs): by induction over the passes, the graph of the answers so far is extended by the answer of the next pass; a run depends only on the positions it reads (run_reads), a pass reads at most one position, and this position is new (from the invariants of InfRun), so the former passes stay the same. Then the theorems about InfModel apply. | proved | `C115_graph_of_answers`, `C115_distances_in_graph_of_answers` |
| C116 | The documented iterative deepening in a single search gives the same results as the one with one search per limit | IddfsOneModel: the program with a single search, with its two functions (start vertices, neighbors) that share the depth limit and a flag with the traversal | Proof (IddfsOneProofs): lock step, per depth limit, with the search of IddfsModel (one_same): the same stacks, trace and reports, and the same flag; after each round the traversal is as at the begin. Results then follow from C112. | proved | `C116_same_results`, `C116_shortest_way` |
| C117 | The documented reduction for infinite branching gives the results of the library class, and the primes | ReduceModel: the function next_edges over states (vertex, edge number), the dictionary of iterators, and the search with TraversalShortestPaths | Proof (ReduceProofs): lock step with InfModel (red_pass): the same heap, distances and pending edges, and iterators that agree because a state (v, 0) is expanded when its noted distance is final (base_is_distance). Results for the class (InfMore) and the primes (PrimesProofs, PrimesUpTo) carry over. | proved | `C117_like_the_class`, `C117_distances`, `C117_every_vertex`, `C117_primes` |
| C118 | Floats as weights: bounded errors of the bidirectional search of shortest paths | BiSPModel, with the floats of FloatModel as weights; specification of lengths that are summed up from both ends: BiSPRoundSpec | Proof (BiSPRound, BiSPRoundRun): the invariants of the search do not need an associative sum; lengths of paths are replaced by lengths summed up from both ends to a place in the path, and the walk known on both sides gives this place (rmeet). BiSPFloat: errors of such sums (csum_errors), exact cases (csum_exact), doubling a float is exact (double_csum). | proved | `C118_rounded_length`, `C118_float_length`, `C118_float_path`, `C118_float_exact` |
| C119 | Floats as weights in infinitely branching graphs | InfNumModel: the traversal for any number type with a sum and a difference; SignedFloat: floats with sign, rounded to the nearest, ties to even; specification: the graph with the exact values of the floats (InfFloatSpec) | Refutation by computation with Python's floats (rounded_edge). Positive part (InfNumProofs): lock step (pass, sim_step) of the run with floats and the run of InfModel with exact numbers: corresponding heaps, distances and pending edges, equal iterators; asked_facts shows that the noted distance of the base state is final when an edge is taken, so the hypothesis on the edges taken covers each sum that is computed. InfFloat: sum, difference and sum again are exact for small multiples of 2^j (sexact, rlf_exact); reports by C30. | partial | `C119_float_infinite_branching_refuted`, `C119_float_infinite_branching_partial`, `C119_float_like_exact_partial` |
| C120 | Options of bidirectional searches do not change what is found | BiBFSModel, BiSPModel; specification BiOptSpec | Proof (BiOpt): two searches with different options proceed in lock step, with the same states but for predecessors and labels; with the same build_path also the predecessors are the same. A generic lemma about runs turns a raised KeyError into a last result for fail_silently. | proved | `C120_breadth_first_search_options`, `C120_breadth_first_search_fail_silently`, `C120_shortest_path_search_options`, `C120_shortest_path_search_fail_silently` |
| C121 | Options of the traversal of infinitely branching graphs do not change what is reported | InfModel; the statement compares two runs directly | Proof (InfOpt): both runs are views of runs of the internal traversal (inf_is_dijkstra of C30), and these differ only in their predecessors (dij_options of C101). | proved | `C121_infinite_branching_options` |
| C122 | The order of edges and start vertices does not influence results | the models of the strategies; the statements compare two runs directly | Proof (OrderProofs, OrderMore): from C01, C02, C07, C20, C21, C27, C28, C30, C31. Sequences of depths or distances are sorted permutations of each other. The weights of two minimum spanning trees: by C102, for each limit both have the same number of edges above the limit, and so the multisets are equal. | proved | `C122_breadth_first_order`, `C122_neighbors_then_depth_order`, `C122_shortest_paths_order`, `C122_minimum_spanning_tree_order`, `C122_bidirectional_breadth_first_order`, `C122_a_star_order`, `C122_infinite_branching_order` |
| C123 | Further edges, start vertices and lower weights never make results worse | the models of the strategies; the statements compare two runs directly | Proof (GrowProofs): from C01, C02, C07, C20, C21, C31; walks of the smaller graph are walks of the larger one, with weights that are not higher. | proved | `C123_breadth_first_grows`, `C123_neighbors_then_depth_grows`, `C123_shortest_paths_grow`, `C123_bidirectional_breadth_first_grows` |

## 4. Trusted base

* Coq's kernel (coqc 8.16.1, with vm_compute for examples and witnesses; no native_compute). No axioms: neither
  own ones nor the ones of the standard library (see section 7). No kernel check is switched off.
* The correspondence of the model and the Python code: each definition cites the lines it models; nothing has been extracted or executed.
* The specification vocabulary (*Spec.v) and the statements in Prop*.v.
* Properties of Python that the model assumes: sets and dicts behave as mathematical sets and maps w.r.t. `==` and
  `hash` of the ids; lists and arrays as sequences; heapq pops the minimum; integers are exact; generators run
  between two calls of next without interruption.

## 5. What is modelled and what is not

Modelled, function by function: `start_from` and the traversal loop of all eight traversals and both bidirectional searches with all options;
path containers and path objects; the go-methods; the collections of the gears; traveling_salesman; edge gadgets; position and array gadgets;
checks of the configuration; start vertices as collection or iterator.

Not modelled:

* `state_to_str`, `StrRepr`, `__repr__`/`__str__` and other string output; type aliases, protocols and MyPyC specifics.
* Neighbor functions that depend on the traversal state or raise exceptions (C88 has them for six strategies, C110 for A* with consistent estimations and for bidirectional searches) in infinite branching, in A* with other estimations, with option is_tree, and in modes
  ALL_PATHS and ALL_WALKS; iterators that look at the traversal while they are read (C93 has them for three strategies, C115 for infinite branching) in the others; functions that change attributes of the traversal.
* Rounding of floats is modelled for TraversalShortestPaths (C96, C97), TraversalAStar (C98, C99), BSearchShortestPath (C118) and TraversalShortestPathsInfBranchingSorted (C119, also with the negative floats that occur as differences there) only; not modelled: negative floats as weights and NaN, overflows of arrays of machine numbers for minimum spanning trees and infinite branching, and for negative weights (for the other cases: C85).
* Exceptions raised by vertex_to_id, heuristic or gear functions of the user; concurrent use of one traversal from several threads.
* `itertools`/`heapq`/`functools` internals.

Simplifications are named in the comments of the definitions.

## 6. Findings

Places where the code does not do what its documentation says or a user expects. Each was found while modelling or proving; the ones with
a property id have a theorem with suffix `_refuted`.

1. Depth first search, labels: if the traversal only follows first edges, labels of the trace can be wrong (C16).
2. Depth first search, `FORWARD_OR_CROSS_EDGE` is not reported although requested, if no other kind of edge is (C60).
3. Depth first search, `CROSS_EDGE` without `BACK_EDGE` reports back edges as cross edges (C61).
4. Depth first search, ALL_WALKS: re-entering the start vertex is reported as ENTERING_START (C62).
5. Depth first search, ALL_PATHS with several start vertices: predecessors of earlier start vertices spoil the paths (C63).
6. Topological sort with several start vertices: order, cycle detection, repeated reports (C65, C66, C67).
7. Topological sort: `cycle_from_start` contains additional elements (C19).
8. A*: infinite estimations of a consistent heuristic (C55); the order of reports is not by path length (C56).
9. Minimum spanning tree: the documented tie breaker is not what happens (C57).
10. Infinite branching: start vertices given as one-shot iterator get lost with `store_distances` and without `build_paths` (C84);
    `combined_calculation_limit` does not count the first edge of a vertex when it is read (C77).
11. BSearchBreadthFirst: with one-shot iterators as start and goal vertices, a common vertex is not detected (C84).
12. BSearchShortestPath returns non-shortest paths (C32), but at most twice as long ones (C70).
13. go_for_vertices_in counts repeated reports as several vertices (C52).
14. Path of a bidirectional search when several vertices have the same id (C69). `del` of a missing key of a sequence based mapping does not
    raise KeyError; `__getitem__` raises KeyError although its docstring promises the default.
15. traveling_salesman raises KeyError although a tour exists, and returns tours that are not optimal (C35).
16. go_for_depth_range and go_for_distance_range lose two vertices, not one (C51).
17. Gears with C floats ("f", the default): a distance is rounded when it is stored. If it is rounded down (e.g. 0.7), the heap entry is regarded as outdated and the vertex is never reported; if it is rounded up (e.g. 0.1), with keep_distances, a path of the same length is regarded as better, and vertices are reported repeatedly, possibly without end (C97).
18. Duplicate start vertices of TraversalShortestPaths are expanded twice.
19. known_distances: see C53; together with is_tree, start vertices have an infinite distance (C78).
20. Depth first search and topological sort raise AssertionError, if already_visited is given and a gear with sequences is used, since an entry of
    already_visited is beyond the end of the set of vertices on the trace (BACK_EDGE events, resp. edges to already visited vertices).
21. BSearchBreadthFirst: `prev_vertex = None` is taken for a repeated report if None is a vertex.
22. adapt_edge_index for a Sequence: negative vertices are taken as index from the end (C71).
23. Array.size and Array.limits raise IndexError for arrays without cells (C73).
24. Arrays with shared rows: a write changes several cells (hypothesis `unshared` in C48).
25. Depth first search compares with the start vertex by equality of vertices, not of ids: in mode ALL_WALKS, the event for
    re-entering a start vertex depends on which of the vertices with the same id is met (C87).
26. Depth first search with `build_paths` and gears that keep vertices in arrays (`GearForIntVerticesAndIDs` and subclasses): the code tests for
    `None` to see whether a start vertex already has a predecessor, but the gap marker of arrays is a number. If the slot already exists
    (`pre_allocate`, or a further start vertex), no empty path is stored, and paths are missing (C79).
27. Topological sort with several start vertices and a gear with byte or bit sequences raises AssertionError ("should never happen") if an edge leads to
    a start vertex with an id beyond the end of the set of vertices on the trace (C82; same cause as 20).
28. Nested loops over one traversal object (C91): the generators of all starts share the attributes depth and event. The depths of an outer breadth first or depth first (with trace) loop are
    wrong after an inner loop, and events of depth first search are wrong if the inner loop is left early. TraversalTopologicalSort uses `self.depth > 0` to recognise start vertices
    (`topological_sort.py:479, 498, 526`): an outer loop can report a vertex twice, and it can lose a start vertex.
29. A* with floats and a consistent heuristic (C99): a weight that vanishes in the sum with a large estimation creates ties that exact sums do not have. A vertex is reported repeatedly, or first with a path length that is not minimal (1 instead of 0.5, with the estimation 2^60). The first goal is nearly optimal nevertheless (C98).
30. adapt_edge_index with add_inverted=True and attributes=True computes `(v1,) + e_to` (read only, not modelled): edges that are lists, which the docstring allows ("Sequence"), raise TypeError.
31. The documented program for biconnected components (C108) delivers sets that are not biconnected components. The start vertex is reported once for all of its components, so their vertices are mixed: in the
    documented output, `['GYB', 'TM', 'MY']` should be two components. At an inner articulation point, the vertices of other subtrees that are not cut off are taken, too. If the start vertex is no articulation point, its component is never delivered.
32. The documented program longest_weighted_path (C111) trusts trace_labels, so finding 1 makes its result wrong: with edges 0 - 1 (10), 0 - 2 (20), 1 - 2 (5) it returns (25, (0, 1, 2)) instead of (20, (0, 2)).
    Paths with a length below 0 are not found, since the search for the maximum begins with -1.
33. The documented program for iterative deepening (C112) does not end in mode ALL_WALKS if no goal can be reached and a cycle can be reached: there are always successors over the limit. (Mode ALL_PATHS ends.)
34. TraversalShortestPathsInfBranchingSorted with floats (C119): the code computes `state_edge_length = next_distance - state_distance`, and the internal traversal adds the state distance again. Both operations round. With the edges 0-1: 1.5, 0-2: 2^52+3, 0-3: 2^52+3, 1-3: 2^52+2 the traversal from 0 reports vertex 3 twice, first with 2^52+4 and then with 2^52+3, and it reports 2 with distance 2^52+4 although the edge from 0 to 2 has weight 2^52+3 (TraversalShortestPaths computes 2^52+3).

## 7. Theorems and what `Print Assumptions` lists for them

`Print Assumptions` stands beneath each property theorem. Its output:

* "Closed under the global context" (no axioms, neither of the standard library nor of our own) for all of the following 313 theorems:
  * `PropAStar.v`: `C24_astar_overflow`, `C26_astar_goal_optimal`, `C27_astar_consistent`, `C54_astar_any_heuristic`, `C55_astar_infinite_estimates_refuted`, `C56_astar_order_refuted`
  * `PropAStarFloat.v`: `C98_float_all_reported`, `C98_float_goal_nearly_optimal`, `C99_float_astar_not_minimal_refuted`, `C99_float_astar_repeats_vertex_refuted`, `C99_float_first_report_partial`
  * `PropAgree.v`: `C104_astar_is_dijkstra`, `C104_bidirectional_is_bfs`, `C104_depth_is_distance`, `C104_same_vertices`
  * `PropArt.v`: `C107_articulation_points`, `C108_biconnected_components_documented_refuted`, `C108_biconnected_components_inner_refuted`, `C108_biconnected_components_missing_refuted`
  * `PropAware.v`: `C88_bfs_reports_in_graph_of_answers`, `C88_bfs_search_aware`, `C88_dfs_search_aware`, `C88_dfs_without_trace_search_aware`, `C88_dijkstra_distances_in_graph_of_answers`, `C88_dijkstra_search_aware`, `C88_mst_search_aware`, `C88_ntd_search_aware`, `C88_topo_search_aware`
  * `PropAwareBi.v`: `C110_astar_search_aware`, `C110_bidirectional_bfs_same_graph`, `C110_bidirectional_bfs_search_aware`, `C110_bidirectional_shortest_path_same_graph`, `C110_bidirectional_shortest_path_search_aware`
  * `PropBFS.v`: `C01_bfs_reports_reachable_once`, `C02_bfs_depth_minimal`, `C03_bfs_paths`, `C04_bfs_already_visited`, `C06_depth_range`, `C51_depth_range_consumes_one_refuted`
  * `PropBiBFS.v`: `C31_bidirectional_bfs_exact`, `C31_bidirectional_bfs_path`, `C69_bidirectional_path_same_ids_refuted`
  * `PropBiOptions.v`: `C120_breadth_first_search_fail_silently`, `C120_breadth_first_search_options`, `C120_shortest_path_search_fail_silently`, `C120_shortest_path_search_options`
  * `PropBiRead.v`: `C95_bidirectional_bfs_reads_half`
  * `PropBiSP.v`: `C24_bidirectional_shortest_path_overflow`, `C32_bidirectional_shortest_path_exact_partial`, `C32_bidirectional_shortest_path_refuted`, `C33_bidirectional_shortest_path_path`, `C33_bidirectional_shortest_path_real`, `C70_bidirectional_shortest_path_at_most_double`
  * `PropBiSPFloat.v`: `C118_float_exact`, `C118_float_length`, `C118_float_path`, `C118_rounded_length`
  * `PropConfig.v`: `C50_bidirectional_configuration_errors`, `C50_configuration_errors`
  * `PropDFS.v`: `C09_dfs_reports_reachable_once`, `C10_dfs_tree`, `C10_dfs_with_and_without_trace`, `C11_dfs_trace`, `C12_dfs_nested`, `C13_dfs_edge_kinds`, `C14_dfs_all_paths`, `C15_dfs_all_walks`, `C16_dfs_labels_partial`, `C16_dfs_labels_refuted`, `C49_dfs_is_tree`, `C50_dfs_options`, `C59_dfs_skip_expanding`, `C60_dfs_forward_or_cross_refuted`, `C61_dfs_cross_without_back_refuted`, `C62_dfs_walks_start_event_refuted`, `C63_dfs_all_paths_paths_refuted`, `C64_dfs_fewer_events`, `C79_dfs_array_gear_paths_refuted`
  * `PropDemoTsp.v`: `C109_demo_traveling_salesman`
  * `PropDijkstra.v`: `C20_dijkstra_distance_minimal`, `C21_dijkstra_reports_reachable_once`, `C22_dijkstra_paths`, `C23_dijkstra_keep_distances`, `C24_dijkstra_overflow`, `C25_dijkstra_distance_range`, `C53_dijkstra_known_distances`
  * `PropDirect.v`: `C80_sequence_map_code`, `C80_sequence_set_code`, `C81_a_star_no_internal_error`, `C81_bsearch_shortest_path_no_internal_error`, `C81_dfs_no_internal_error`, `C81_dijkstra_no_internal_error`, `C81_topological_sort_no_internal_error`, `C82_dfs_already_visited_refuted`, `C82_topological_sort_start_vertices_refuted`
  * `PropDistSeries.v`: `C92_series_left_early`, `C92_series_of_known_distances`
  * `PropEdge.v`: `C45_adapt_edge_index_mapping`, `C45_adapt_edge_index_sequence`, `C45_adapt_edge_iterable`, `C45_edge_iterable_graph`, `C71_edge_index_negative_vertex_refuted`
  * `PropFloat.v`: `C96_float_distances_exact`, `C96_float_distances_nearly_minimal`, `C96_float_paths_nearly_shortest`, `C96_floats_are_ieee`
  * `PropGears.v`: `C41_sets_behave_as_sets`, `C42_mappings_behave_as_maps`
  * `PropGo.v`: `C39_go_to`, `C40_go_for_vertices_in`, `C52_go_for_vertices_in_repeated_refuted`
  * `PropGrow.v`: `C123_bidirectional_breadth_first_grows`, `C123_breadth_first_grows`, `C123_neighbors_then_depth_grows`, `C123_shortest_paths_grow`
  * `PropHistory.v`: `C86_breadth_first_history`, `C86_each_report_once`, `C86_exhausted`, `C86_fail_silently`, `C86_missing_vertices`, `C86_operations_deliver_what_they_seek`, `C86_own_exception_once`, `C86_passes`, `C86_vertices_iterator_bound`
  * `PropIddfs.v`: `C112_iterative_deepening_partial`, `C112_iterative_deepening_walks_refuted`
  * `PropIddfsOne.v`: `C116_same_results`, `C116_shortest_way`
  * `PropInf.v`: `C05_infinite_branching_calculation_limit`, `C30_distances`, `C30_paths`, `C30_progress`, `C30_stored_distances`, `C43_infinite_branching_gear_independent`, `C75_distance_attribute`, `C75_lazy_reading`, `C76_limit_is_vertices_plus_edges`, `C77_limit_bounds_vertices_and_edges_refuted`
  * `PropInfFloat.v`: `C119_float_infinite_branching_partial`, `C119_float_infinite_branching_refuted`, `C119_float_like_exact_partial`
  * `PropInfLazy.v`: `C115_distances_in_graph_of_answers`, `C115_graph_of_answers`
  * `PropInfOptions.v`: `C121_infinite_branching_options`
  * `PropLazy.v`: `C93_bfs_lazy_answers`, `C93_bfs_reports_in_graph_of_read_edges`, `C93_dijkstra_distances_in_graph_of_read_edges`, `C93_dijkstra_lazy_answers`, `C93_ntd_lazy_answers`
  * `PropLimit.v`: `C05_astar_calculation_limit`, `C05_bfs_calculation_limit`, `C05_bidirectional_bfs_calculation_limit`, `C05_bidirectional_shortest_path_calculation_limit`, `C05_dfs_calculation_limit`, `C05_dijkstra_calculation_limit`, `C05_mst_calculation_limit`, `C05_ntd_calculation_limit`, `C05_topo_calculation_limit`
  * `PropLongest.v`: `C111_longest_path_negative_refuted`, `C111_longest_path_partial`, `C111_longest_path_refuted`
  * `PropMST.v`: `C28_mst_spanning_tree`, `C29_mst_minimal`, `C57_mst_tie_breaker_refuted`
  * `PropMSTMore.v`: `C102_float_mst_minimal`, `C102_mst_minimal_in_every_measure`, `C103_mst_heaviest_edge_minimal`
  * `PropMatrix.v`: `C46_is_in_cuboid`, `C46_wrap_and_move`, `C46_wrap_to_cuboid`, `C47_moves`, `C47_neighbors`, `C47_neighbors_symmetric`, `C48_findall`, `C48_items`, `C48_mutable_copy`, `C48_negative_coordinates`, `C48_set_get`, `C48_size`, `C72_array_neighbors_symmetric`, `C72_next_edges_from_cell_weights`, `C72_next_vertices_from_forbidden`, `C73_size_of_empty_array_refuted`, `C74_arithmetic`, `C74_manhattan_metric`, `C74_manhattan_moves`
  * `PropNTD.v`: `C04_ntd_already_visited`, `C07_ntd_reports_reachable_once`, `C08_ntd_paths_and_depth`, `C58_ntd_order`
  * `PropNested.v`: `C90_nested_a_star`, `C90_nested_breadth_first`, `C90_nested_depth_first`, `C90_nested_minimum_spanning_tree`, `C90_nested_neighbors_then_depth`, `C90_nested_shortest_paths`, `C90_nested_topological_sort_of_tree`, `C90_restart_breadth_first`, `C90_restart_depth_first`, `C90_restart_neighbors_then_depth`, `C90_restart_topological_sort`
  * `PropNestedInf.v`: `C90_nested_infinite_branching`
  * `PropNestedRefuted.v`: `C91_breadth_first_depth_refuted`, `C91_depth_first_depth_refuted`, `C91_depth_first_event_refuted`, `C91_neighbors_then_depth_depth_refuted`, `C91_topological_sort_lost_refuted`, `C91_topological_sort_twice_refuted`
  * `PropOptions.v`: `C101_a_star_options`, `C101_breadth_first_options`, `C101_depth_first_options`, `C101_minimum_spanning_tree_options`, `C101_neighbors_then_depth_options`, `C101_shortest_paths_options`, `C101_topological_sort_options`
  * `PropOrder.v`: `C122_bidirectional_breadth_first_order`, `C122_breadth_first_order`, `C122_minimum_spanning_tree_order`, `C122_neighbors_then_depth_order`, `C122_shortest_paths_order`
  * `PropOrderMore.v`: `C122_a_star_order`, `C122_infinite_branching_order`
  * `PropPath.v`: `C38_path_views_agree`
  * `PropPaths.v`: `C37_paths_views_agree`
  * `PropPrimes.v`: `C113_sieve_up_to`, `C113_sieve_yields_primes`, `C114_divisors`, `C114_every_number`, `C114_primes_and_others`, `C114_up_to`
  * `PropRange.v`: `C85_a_star_range`, `C85_bsearch_shortest_path_range`, `C85_dijkstra_range`, `C85_range_fits_array`
  * `PropRead.v`: `C94_a_star_reads`, `C94_breadth_first_reads`, `C94_breadth_first_reads_smaller_depths`, `C94_depth_first_reads`, `C94_minimum_spanning_tree_reads`, `C94_neighbors_then_depth_reads`, `C94_shortest_paths_reads`
  * `PropReduce.v`: `C117_distances`, `C117_every_vertex`, `C117_like_the_class`, `C117_primes`
  * `PropSCC.v`: `C106_strongly_connected_components`
  * `PropSeries.v`: `C89_series_complete`, `C89_series_reports`, `C89_series_visited`
  * `PropSim.v`: `C43_astar_gear_independent`, `C43_bfs_gear_independent`, `C43_bidirectional_bfs_gear_independent`, `C43_bidirectional_shortest_path_gear_independent`, `C43_dfs_gear_independent`, `C43_dijkstra_gear_independent`, `C43_mst_gear_independent`, `C43_ntd_gear_independent`, `C43_topo_gear_independent`, `C44_astar_vertex_to_id`, `C44_bfs_vertex_to_id`, `C44_bidirectional_bfs_vertex_to_id`, `C44_bidirectional_shortest_path_vertex_to_id`, `C44_dfs_vertex_to_id`, `C44_dijkstra_vertex_to_id`, `C44_mst_vertex_to_id`, `C44_ntd_vertex_to_id`, `C44_topo_vertex_to_id`, `C87_dfs_all_walks_vertex_to_id_refuted`
  * `PropStart.v`: `C83_bsearch_breadth_first`, `C83_bsearch_shortest_path`, `C83_infinite_branching`, `C83_start_vertices`, `C84_bsearch_breadth_first_iterator_refuted`, `C84_infinite_branching_iterator_refuted`
  * `PropStore.v`: `C97_cfloat_gear_misses_vertex_refuted`, `C97_cfloat_gear_repeats_vertex_refuted`, `C97_single_floats_partial`, `C97_stored_distances_partial`
  * `PropTopo.v`: `C17_topological_order`, `C18_cycle_error_means_cycle`, `C18_topo_decides_cycle`, `C19_cycle_from_start_partial`, `C19_cycle_from_start_refuted`, `C49_topo_is_tree`, `C65_order_of_several_starts_partial`, `C65_order_of_several_starts_refuted`, `C66_cycle_through_starts_refuted`, `C67_start_given_twice_refuted`, `C68_topo_depth_and_paths`
  * `PropTree.v`: `C49_astar_is_tree`, `C49_bfs_is_tree`, `C49_dijkstra_is_tree`, `C49_ntd_is_tree`, `C78_tree_with_known_distances_refuted`
  * `PropTsp.v`: `C34_outcome`, `C34_tour`, `C35_equal_weights_partial`, `C35_finds_existing_tour_refuted`, `C35_near_optimal_partial`, `C35_shortest_tour_refuted`, `C35_twice_shortest_partial`, `C36_find_longest`, `C36_negative_weights`
  * `PropWork.v`: `C100_a_star_work`, `C100_breadth_first_work`, `C100_depth_first_work`, `C100_minimum_spanning_tree_work`, `C100_neighbors_then_depth_work`, `C100_shortest_paths_work`, `C100_topological_sort_work`
  * `PropWorkBi.v`: `C105_bidirectional_breadth_first_work`, `C105_bidirectional_shortest_path_work`, `C105_infinite_branching_work`
* No other theorems; no theorem depends on any axiom.
