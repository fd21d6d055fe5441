{"id": "C01", "title": "Breadth first search reports exactly the reachable vertices, each once", "statement": "Iterating TraversalBreadthFirst(Flex) reports no vertex id twice, never a start vertex and never a vertex that cannot be reached from the start vertices; when the iteration ends, every reachable non-start vertex has been reported, and attribute visited holds exactly the start vertices and the reported ones. On a finitely branching infinite graph, every reachable vertex is reported after finitely many steps.", "quantifier": "every directed graph (any vertex type, any neighbor function, finite or infinite), every vertex_to_id, every list of start vertices, every gear, every prefix of the iteration", "why_tests_cant": "The claim ranges over all graphs, including infinite ones, and over all prefixes of the iteration.", "anchors": ["src/nographs/_strategies/traversals/without_weights/breadth_first.py:TraversalBreadthFirstFlex.start_from", "src/nographs/_strategies/traversals/without_weights/breadth_first.py:TraversalBreadthFirstFlex._traverse", "src/nographs/_strategies/utils.py:define_visited"]}
{"id": "C02", "title": "Breadth first search reports minimal depths in ascending order", "statement": "Whenever TraversalBreadthFirst reports a vertex, attribute depth equals the minimal number of edges of a path from a start vertex to it, and the depths of successive reports never decrease; when the iteration ends, depth is the maximal depth of a reported vertex (0 if there is none).", "quantifier": "every directed graph (any vertex type, any neighbor function, finite or infinite), every vertex_to_id, every list of start vertices, every gear, every report of every iteration", "why_tests_cant": "Minimality is a statement about all paths of an arbitrary graph.", "anchors": ["src/nographs/_strategies/traversals/without_weights/breadth_first.py:TraversalBreadthFirstFlex._traverse"]}
{"id": "C03", "title": "Breadth first search builds real and shortest paths", "statement": "With build_paths, from the moment a vertex is reported by TraversalBreadthFirst, paths[vertex] is a path of existing edges from a start vertex to that vertex, it has exactly depth many edges (so no path has fewer), and it is not changed by the rest of the iteration; start vertices have the empty path. With labeled edges, the labels in the path are labels of the corresponding edges.", "quantifier": "every directed graph (any vertex type, any neighbor function, finite or infinite), every vertex_to_id, every list of start vertices, every gear, with and without labels", "why_tests_cant": "All graphs and all moments of the iteration at which a path may be asked for.", "anchors": ["src/nographs/_strategies/traversals/without_weights/breadth_first.py:TraversalBreadthFirstFlex._traverse", "src/nographs/_paths.py:Paths", "src/nographs/_strategies/utils.py:create_paths"]}
{"id": "C04", "title": "already_visited excludes exactly the preloaded vertices", "statement": "If a set is given as already_visited to TraversalBreadthFirst or TraversalNeighborsThenDepth, no preloaded vertex is ever reported or expanded (unless it is a start vertex), the reported vertices are exactly those reachable without entering preloaded vertices, and afterwards the same set holds its old content, the start vertices and the reported vertices.", "quantifier": "every graph, every preloaded set, every list of start vertices, every gear", "why_tests_cant": "All combinations of graph and preloaded set.", "anchors": ["src/nographs/_strategies/traversals/without_weights/traversal_without_weights.py:_TraversalWithoutWeightsWithVisited", "src/nographs/_strategies/traversals/without_weights/breadth_first.py:TraversalBreadthFirstFlex._traverse", "src/nographs/_strategies/traversals/without_weights/neighbors_then_depth.py:TraversalNeighborsThenDepthFlex._traverse"]}
{"id": "C05", "title": "calculation_limit bounds the number of vertices read from the graph", "statement": "With calculation_limit = n >= 0, a traversal asks the neighbor function about at most n vertices; RuntimeError is raised exactly when a further vertex would have to be expanded; without such a need the reports are the same as without a limit.", "quantifier": "every graph, every limit, every traversal strategy and the bidirectional searches", "why_tests_cant": "All limits relative to all graphs.", "anchors": ["src/nographs/_strategies/traversals/without_weights/breadth_first.py:TraversalBreadthFirstFlex._traverse", "src/nographs/_strategies/traversals/without_weights/depth_first.py:TraversalDepthFirstFlex", "src/nographs/_strategies/traversals/with_weights/shortest_paths.py:TraversalShortestPathsFlex._traverse", "src/nographs/_strategies/traversals/with_weights/minimum_spanning_tree.py:TraversalMinimumSpanningTreeFlex._traverse"]}
{"id": "C06", "title": "go_for_depth_range reports exactly the vertices of the depth range", "statement": "go_for_depth_range(start, stop) on a started TraversalBreadthFirst reports, in order, exactly the vertices the plain iteration would have reported from there on with start <= depth < stop; if it stops by itself, it has consumed at most two further vertices, and exactly one if it has reported something.", "quantifier": "every graph, every pair of bounds, every position in the iteration", "why_tests_cant": "All graphs and bounds.", "anchors": ["src/nographs/_strategies/traversals/without_weights/breadth_first.py:TraversalBreadthFirstFlex.go_for_depth_range"]}
{"id": "C07", "title": "TraversalNeighborsThenDepth reports exactly the reachable vertices, each once", "statement": "The iteration reports each vertex reachable from the start vertices and not itself a start vertex exactly once and nothing else, and ends on every graph with finitely many reachable vertices.", "quantifier": "every directed graph (any vertex type, any neighbor function, finite or infinite), every vertex_to_id, every list of start vertices, every gear", "why_tests_cant": "All graphs.", "anchors": ["src/nographs/_strategies/traversals/without_weights/neighbors_then_depth.py:TraversalNeighborsThenDepthFlex._traverse"]}
{"id": "C08", "title": "TraversalNeighborsThenDepth paths and depth agree", "statement": "With build_paths, paths[v] for a reported vertex v is a path of existing edges from a start vertex to v; if compute_depth is demanded, attribute depth equals its number of edges at the moment v is reported.", "quantifier": "every directed graph (any vertex type, any neighbor function, finite or infinite), every vertex_to_id, every list of start vertices, every gear", "why_tests_cant": "All graphs, all reports.", "anchors": ["src/nographs/_strategies/traversals/without_weights/neighbors_then_depth.py:TraversalNeighborsThenDepthFlex._traverse"]}
{"id": "C09", "title": "Depth first search enters exactly the reachable vertices, each once", "statement": "In mode DFS_TREE, TraversalDepthFirst enters each vertex reachable from the start vertices exactly once and nothing else; by default the reported vertices are the vertices entered from another vertex.", "quantifier": "every directed graph (any vertex type, any neighbor function, finite or infinite), every vertex_to_id, every list of start vertices, every gear, with and without trace computation", "why_tests_cant": "All graphs.", "anchors": ["src/nographs/_strategies/traversals/without_weights/depth_first.py:TraversalDepthFirstFlex._traverse_with_trace", "src/nographs/_strategies/traversals/without_weights/depth_first.py:TraversalDepthFirstFlex._traverse_without_trace"]}
{"id": "C10", "title": "Depth first search visits in depth first order along a tree", "statement": "In mode DFS_TREE, the order of entering is a depth first order: a vertex is entered from the most recently entered vertex that still has an unvisited successor; built paths are the paths of this tree, consist of existing edges and have depth many edges; the implementations with and without trace computation report the same vertices in the same order with the same depths and paths.", "quantifier": "every directed graph (any vertex type, any neighbor function, finite or infinite), every vertex_to_id, every list of start vertices, every gear", "why_tests_cant": "All graphs; agreement of two separate loop implementations.", "anchors": ["src/nographs/_strategies/traversals/without_weights/depth_first.py:TraversalDepthFirstFlex._traverse_with_trace", "src/nographs/_strategies/traversals/without_weights/depth_first.py:TraversalDepthFirstFlex._traverse_without_trace"]}
{"id": "C11", "title": "Depth first trace is the path from the start vertex to the reported vertex", "statement": "With compute_trace, whenever an event is reported, attribute trace is a sequence of vertices that begins with the current start vertex, follows existing edges and ends with the reported vertex, and depth is the length of the trace minus one (for entering and leaving events).", "quantifier": "every graph, every mode, every set of reported events", "why_tests_cant": "All graphs, modes and event sets.", "anchors": ["src/nographs/_strategies/traversals/without_weights/depth_first.py:TraversalDepthFirstFlex._traverse_with_trace"]}
{"id": "C12", "title": "Depth first enter and leave events are balanced and nested", "statement": "With events for entering and leaving reported, the reported events form a well bracketed sequence: each entered vertex is left exactly once, after all vertices entered from it have been left, and (in modes DFS_TREE and ALL_PATHS) start vertices are entered/left with the *_START events, others with the *_SUCCESSOR events.", "quantifier": "every graph with finitely many reachable vertices, every list of start vertices, modes DFS_TREE, ALL_PATHS and ALL_WALKS", "why_tests_cant": "All graphs.", "anchors": ["src/nographs/_strategies/traversals/without_weights/depth_first.py:TraversalDepthFirstFlex._traverse_with_trace", "src/nographs/_strategies/traversals/without_weights/depth_first_enum_types.py:DFSEvent"]}
{"id": "C13", "title": "Depth first non-tree edges are classified correctly", "statement": "In mode DFS_TREE with BACK_EDGE, FORWARD_EDGE and CROSS_EDGE reported, an edge u -> v that does not lead to a newly entered vertex is reported as back edge iff v is on the trace, as forward edge iff v is a proper descendant of u that has been left, and as cross edge otherwise, and each edge of an expanded vertex is reported by exactly one of these events or enters a vertex.", "quantifier": "every graph, every requested combination of events", "why_tests_cant": "All graphs and combinations of requested events.", "anchors": ["src/nographs/_strategies/traversals/without_weights/depth_first.py:TraversalDepthFirstFlex._traverse_with_trace", "src/nographs/_strategies/traversals/without_weights/depth_first_enum_types.py:DFSEvent"]}
{"id": "C14", "title": "Depth first mode ALL_PATHS enumerates exactly the simple paths", "statement": "In mode ALL_PATHS, the traces at the entering events are exactly the simple (vertex-repetition free) paths from each start vertex, each path of the graph exactly once per choice of parallel edges, and the traversal ends if the reachable part is finite; with a single start vertex, paths asked from attribute paths at an entering event equal the trace.", "quantifier": "every graph, every list of start vertices", "why_tests_cant": "All graphs.", "anchors": ["src/nographs/_strategies/traversals/without_weights/depth_first.py:TraversalDepthFirstFlex._traverse_with_trace", "src/nographs/_strategies/traversals/without_weights/depth_first_enum_types.py:DFSMode"]}
{"id": "C15", "title": "Depth first mode ALL_WALKS enumerates the walks", "statement": "In mode ALL_WALKS, the traces at the entering events are walks of the graph from the start vertices; each walk is entered at most once (per parallel edge choice); on a graph without cycles reachable from the start, all walks are entered and the traversal ends.", "quantifier": "every graph, every list of start vertices", "why_tests_cant": "All graphs; infinitely many walks.", "anchors": ["src/nographs/_strategies/traversals/without_weights/depth_first.py:TraversalDepthFirstFlex._traverse_with_trace", "src/nographs/_strategies/traversals/without_weights/depth_first_enum_types.py:DFSMode"]}
{"id": "C16", "title": "Depth first labels belong to the edges of the trace and of the paths", "statement": "With labeled edges, the labels in attribute trace_labels (and in built paths) are, position by position, labels of edges between the successive vertices of trace (of the path).", "quantifier": "every labeled graph, every mode", "why_tests_cant": "All labeled graphs.", "anchors": ["src/nographs/_strategies/traversals/without_weights/depth_first.py:TraversalDepthFirstFlex._traverse_with_trace"]}
{"id": "C17", "title": "Topological sort reports dependencies first", "statement": "If TraversalTopologicalSort ends without exception, it has reported each vertex reachable from the start vertices (including these) exactly once, and for every edge u -> v between them, v has been reported before u.", "quantifier": "every finite graph, every list of distinct start vertices of which none can be reached from another one (see C65, C66 for the others), every gear, every set of already visited vertices", "why_tests_cant": "All graphs and all choices of start vertices.", "anchors": ["src/nographs/_strategies/traversals/without_weights/topological_sort.py:TraversalTopologicalSortFlex._traverse_in_non_tree"]}
{"id": "C18", "title": "Topological sort detects exactly the cyclic inputs", "statement": "RuntimeError 'Graph contains cycle' is raised iff a cycle is reachable from the start vertices.", "quantifier": "every finite graph, every list of distinct start vertices of which none can be reached from another one (see C65, C66 for the others), every gear, every set of already visited vertices", "why_tests_cant": "All graphs.", "anchors": ["src/nographs/_strategies/traversals/without_weights/topological_sort.py:TraversalTopologicalSortFlex._traverse_in_non_tree", "src/nographs/_strategies/traversals/without_weights/topological_sort.py:TraversalTopologicalSortFlex._report_cycle"]}
{"id": "C19", "title": "Topological sort provides a real cyclic path on failure", "statement": "When the cycle error is raised, attribute cycle_from_start is a path of existing edges that starts at a start vertex and whose last vertex occurs a second time in it.", "quantifier": "every graph with a reachable cycle", "why_tests_cant": "All graphs.", "anchors": ["src/nographs/_strategies/traversals/without_weights/topological_sort.py:TraversalTopologicalSortFlex._report_cycle"]}
{"id": "C20", "title": "Dijkstra reports minimal distances in non-decreasing order", "statement": "Whenever TraversalShortestPaths reports a vertex, attribute distance is the minimal sum of weights of a path from a start vertex to it; the distances of successive reports do not decrease.", "quantifier": "every graph with non-negative weights, every ordered weight domain in which addition is monotone (exact or rounded), every list of start vertices, every gear", "why_tests_cant": "Minimality over all paths of all graphs.", "anchors": ["src/nographs/_strategies/traversals/with_weights/shortest_paths.py:TraversalShortestPathsFlex._traverse"]}
{"id": "C21", "title": "Dijkstra reports exactly the reachable vertices, each once", "statement": "TraversalShortestPaths reports each vertex reachable from the start vertices that is not a start vertex exactly once; on every graph with a finite reachable part it ends, or raises OverflowError because a path weight reaches the infinity value of the gear.", "quantifier": "as C20", "why_tests_cant": "All graphs.", "anchors": ["src/nographs/_strategies/traversals/with_weights/shortest_paths.py:TraversalShortestPathsFlex._traverse"]}
{"id": "C22", "title": "Dijkstra builds real paths that realise the distance", "statement": "With build_paths, when a vertex is reported, paths[vertex] is a path of existing edges from a start vertex, the sum of its weights is the reported distance, and attribute depth is its number of edges.", "quantifier": "as C20, with and without labels", "why_tests_cant": "All graphs.", "anchors": ["src/nographs/_strategies/traversals/with_weights/shortest_paths.py:TraversalShortestPathsFlex._traverse"]}
{"id": "C23", "title": "Dijkstra distances collection", "statement": "With keep_distances, after the iteration has ended, attribute distances holds exactly the minimal distances of all vertices reachable from the start vertices; for all others it gives infinity.", "quantifier": "as C20", "why_tests_cant": "All graphs.", "anchors": ["src/nographs/_strategies/traversals/with_weights/shortest_paths.py:TraversalShortestPathsFlex._traverse", "src/nographs/_strategies/utils.py:define_distances"]}
{"id": "C24", "title": "Distances never silently reach the infinity of the gear", "statement": "If a computed path weight reaches or exceeds the infinity value of the gear, OverflowError is raised before it is reported or stored; consequently every reported and stored distance is below infinity.", "quantifier": "every graph, every gear infinity value, strategies Dijkstra, A* and bidirectional shortest path", "why_tests_cant": "All graphs and all infinity values.", "anchors": ["src/nographs/_strategies/traversals/with_weights/shortest_paths.py:TraversalShortestPathsFlex._traverse", "src/nographs/_strategies/traversals/with_weights/a_star.py:TraversalAStarFlex._traverse", "src/nographs/_strategies/bidirectional_search/shortest_path.py:BSearchShortestPathFlex.start_from", "src/nographs/_gears.py:Gear.raise_distance_infinity_overflow_error"]}
{"id": "C25", "title": "go_for_distance_range reports exactly the vertices of the distance range", "statement": "go_for_distance_range(start, stop) reports, in order, exactly the vertices that the plain iteration would have reported from there on with start <= distance < stop; if it stops by itself, it has consumed at most two further vertices, and exactly one if it has reported something.", "quantifier": "every graph with non-negative weights, all bounds", "why_tests_cant": "All graphs and bounds.", "anchors": ["src/nographs/_strategies/traversals/with_weights/traversal_with_weights.py:_TraversalWithDistance.go_for_distance_range"]}
{"id": "C26", "title": "A* reports the goal with the length of a shortest path", "statement": "If the heuristic is admissible (never overestimates the remaining distance to the goal) and zero at the goal, then when TraversalAStar reports the goal for the first time, path_length is the length of a shortest path from a start vertex to it, and (build_paths) paths[goal] is a path of existing edges with this length and depth many edges.", "quantifier": "every graph with non-negative weights, every admissible heuristic with finite values", "why_tests_cant": "All graphs and heuristics.", "anchors": ["src/nographs/_strategies/traversals/with_weights/a_star.py:TraversalAStarFlex._traverse"]}
{"id": "C27", "title": "A* with a consistent heuristic settles every vertex once and optimally", "statement": "If the heuristic is consistent, every vertex is reported at most once, with path_length equal to its minimal distance.", "quantifier": "every graph with non-negative weights, every consistent heuristic", "why_tests_cant": "All graphs and heuristics.", "anchors": ["src/nographs/_strategies/traversals/with_weights/a_star.py:TraversalAStarFlex._traverse"]}
{"id": "C28", "title": "Minimum spanning tree: the reported edges form a spanning tree", "statement": "On an undirected graph (each edge given in both directions), TraversalMinimumSpanningTree reports edges of the graph such that each vertex reachable from the start vertices is attached exactly once; the edges contain no cycle and connect every reached vertex to a start vertex.", "quantifier": "every undirected weighted graph, every list of start vertices", "why_tests_cant": "All graphs.", "anchors": ["src/nographs/_strategies/traversals/with_weights/minimum_spanning_tree.py:TraversalMinimumSpanningTreeFlex._traverse"]}
{"id": "C29", "title": "Minimum spanning tree: the total weight is minimal", "statement": "With one start vertex, the sum of the weights of the reported edges is minimal among all edge sets that connect all vertices of the component of the start vertex (with several: among all edge sets connecting each vertex with some start vertex).", "quantifier": "every finite undirected weighted graph, all (also negative) weights", "why_tests_cant": "Minimality over all spanning edge sets.", "anchors": ["src/nographs/_strategies/traversals/with_weights/minimum_spanning_tree.py:TraversalMinimumSpanningTreeFlex._traverse"]}
{"id": "C30", "title": "Infinite branching search equals Dijkstra", "statement": "TraversalShortestPathsInfBranchingSorted, given edges sorted by ascending weight, reports vertices with their minimal distance in non-decreasing order, each once, with real paths - also if a vertex has infinitely many edges.", "quantifier": "every graph with non-negative weights whose (possibly infinite) edge streams are sorted", "why_tests_cant": "Infinite inputs.", "anchors": ["src/nographs/_strategies/traversals/with_weights/extra_infinite_branching.py:TraversalShortestPathsInfBranchingSortedFlex._traverse"]}
{"id": "C31", "title": "Bidirectional breadth first search returns the exact distance", "statement": "BSearchBreadthFirst.start_from returns the minimal number of edges of a path from a start to a goal vertex together with a real path of this length; if there is no such path it raises KeyError (or returns -1 and an empty path).", "quantifier": "every graph given by a pair of mutually inverse neighbor functions, every list of start and goal vertices", "why_tests_cant": "All graphs.", "anchors": ["src/nographs/_strategies/bidirectional_search/breadth_first.py:BSearchBreadthFirstFlex.start_from"]}
{"id": "C32", "title": "Bidirectional shortest path search returns the length of a shortest path", "statement": "BSearchShortestPath.start_from returns the minimal sum of weights of a path from a start to a goal vertex.", "quantifier": "every graph with non-negative weights given by mutually inverse edge functions, every list of start and goal vertices", "why_tests_cant": "All graphs; the stopping criterion depends on the interleaving of both searches.", "anchors": ["src/nographs/_strategies/bidirectional_search/shortest_path.py:BSearchShortestPathFlex.start_from"]}
{"id": "C33", "title": "Bidirectional shortest path search returns a real path and fails only without path", "statement": "The returned path is a path of existing edges from a start vertex to a goal vertex, the returned length is an upper bound of the distance that is attained by a path, and KeyError is raised iff there is no path.", "quantifier": "as C32", "why_tests_cant": "All graphs.", "anchors": ["src/nographs/_strategies/bidirectional_search/shortest_path.py:BSearchShortestPathFlex.start_from", "src/nographs/_path.py:PathOfUnlabeledEdges"]}
{"id": "C34", "title": "Traveling salesman returns a tour with its true length", "statement": "If traveling_salesman returns (length, tour), then tour starts and ends with the first vertex, visits every other given vertex exactly once, uses only existing edges, and length is the sum of its (original) weights, for shortest and for longest tours and for negative weights.", "quantifier": "every list of at least two vertices and every weight table", "why_tests_cant": "All weight tables.", "anchors": ["src/nographs/_extra_tsp.py:traveling_salesman_flex", "src/nographs/_extra_tsp.py:_traveling_salesman_int_vertices"]}
{"id": "C35", "title": "Traveling salesman finds an optimal tour", "statement": "The tour returned by traveling_salesman has minimal (find_longest: maximal) length among all tours, and KeyError is raised only if there is no tour.", "quantifier": "every list of at least two vertices and every weight table", "why_tests_cant": "All tours of all weight tables.", "anchors": ["src/nographs/_extra_tsp.py:_traveling_salesman_int_vertices"]}
{"id": "C36", "title": "Weight changes for negative weights and longest tours are undone exactly", "statement": "The transformations used for negative weights and find_longest make all weights non-negative, keep (resp. reverse) the order of tours by length, and undo_weight_changes_in_travel_length recovers the original length.", "quantifier": "every multiset of weights, every number of edges", "why_tests_cant": "All weights.", "anchors": ["src/nographs/_extra_tsp.py:weight_changes_for_negative_weights", "src/nographs/_extra_tsp.py:weight_changes_for_find_longest", "src/nographs/_extra_tsp.py:undo_weight_changes_in_travel_length"]}
{"id": "C37", "title": "Paths container views agree", "statement": "For a stored path, iter_vertices_from_start is the reverse of iter_vertices_to_start, iter_edges_* are the pairs of neighbouring vertices, iter_labeled_edges_* additionally carry the labels stored for the edges' end vertices, predecessor gives the vertex before the last one, and asking for a vertex without path raises RuntimeError.", "quantifier": "every content of the predecessor bookkeeping that a traversal can create", "why_tests_cant": "All paths.", "anchors": ["src/nographs/_paths.py:Paths", "src/nographs/_paths.py:PathsOfUnlabeledEdges", "src/nographs/_paths.py:PathsOfLabeledEdges"]}
{"id": "C38", "title": "Path object views agree", "statement": "Path.iter_vertices_from_start and iter_vertices_to_start are reverses of each other, iter_edges_from_start are the pairs of neighbouring vertices, iter_labeled_edges_from_start carries the labels of both halves in order, and a path combined from a forward and a backward search is the forward half followed by the backward half without repeating the connecting vertex.", "quantifier": "every pair of path halves", "why_tests_cant": "All path lengths.", "anchors": ["src/nographs/_path.py:Path", "src/nographs/_path.py:PathOfUnlabeledEdges", "src/nographs/_path.py:PathOfLabeledEdges"]}
{"id": "C39", "title": "go_to returns the first report of the vertex", "statement": "go_to(vertex) consumes reports up to and including the first one with the same id and returns it; if there is none, KeyError is raised (None with fail_silently) and everything has been consumed.", "quantifier": "every traversal, every position", "why_tests_cant": "All iterations.", "anchors": ["src/nographs/_strategies/traversals/traversal.py:Traversal.go_to"]}
{"id": "C40", "title": "go_for_vertices_in finds all requested vertices", "statement": "go_for_vertices_in(vertices) reports exactly the first reports of requested vertices in order, stops directly after all requested vertices have been found, and otherwise raises KeyError at the end (or ends silently).", "quantifier": "every traversal, every requested set, every position", "why_tests_cant": "All iterations.", "anchors": ["src/nographs/_strategies/traversals/traversal.py:Traversal.go_for_vertices_in"]}
{"id": "C41", "title": "Sequence based vertex sets behave as sets", "statement": "After any history of add, discard, update and clear operations, a vertex set of the gears for integer vertex ids (with or without bit packing, list or array) answers membership, iteration and length like a mathematical set.", "quantifier": "every history of operations, all non-negative ids, every pre-allocation and extension size", "why_tests_cant": "All histories.", "anchors": ["src/nographs/_gear_collections.py:VertexSetWrappingSequenceNoBitPacking", "src/nographs/_gear_collections.py:VertexSetWrappingSequenceBitPacking", "src/nographs/_gear_collections.py:VertexSequenceWrapper.extend_and_set"]}
{"id": "C42", "title": "Sequence based vertex mappings behave as mappings", "statement": "After any history of set, delete, update and update_default operations, a vertex mapping of the gears for integer vertex ids answers lookup, membership, iteration and length like a mathematical partial map; the default value stands for absence.", "quantifier": "every history of operations, all non-negative ids, every pre-allocation and extension size", "why_tests_cant": "All histories.", "anchors": ["src/nographs/_gear_collections.py:VertexMappingWrappingSequence", "src/nographs/_gear_collections.py:VertexSequenceWrapper.extend_and_set"]}
{"id": "C43", "title": "The result of a traversal does not depend on the gear", "statement": "Exchanging the gear (hash based, sequence based, bit packed, array based) does not change the sequence of reports of a traversal nor the attribute values observed at the reports.", "quantifier": "every graph with integer vertex ids, every pair of gears, strategies as modelled", "why_tests_cant": "Inlined code variants per gear; all graphs.", "anchors": ["src/nographs/_gears.py:GearForHashableVertexIDs", "src/nographs/_gears.py:GearForIntVertexIDs", "src/nographs/_gear_collections.py:access_to_vertex_set"]}
{"id": "C44", "title": "Vertex identity by vertex_to_id", "statement": "With a vertex_to_id function, vertices with equal id are treated as the same vertex: reports, depths, distances and events are those of the graph on ids. (Depth first search in mode ALL_WALKS or with is_tree, with different vertices of the same id and a cycle through a start vertex: see C87.)", "quantifier": "every graph and every id function that is compatible with the neighbor function, all strategies that take vertex_to_id", "why_tests_cant": "All graphs and id functions.", "anchors": ["src/nographs/_types.py:VertexToID", "src/nographs/_strategies/traversals/without_weights/breadth_first.py:TraversalBreadthFirstFlex._traverse", "src/nographs/_strategies/traversals/with_weights/shortest_paths.py:TraversalShortestPathsFlex._traverse"]}
{"id": "C45", "title": "Edge gadgets represent exactly the given edges", "statement": "The neighbor function returned by adapt_edge_index / adapt_edge_iterable yields for each vertex exactly the given edges (and with add_inverted exactly the given and the inverted edges), in the given order, and nothing for unknown vertices.", "quantifier": "every edge list and every index", "why_tests_cant": "All edge lists.", "anchors": ["src/nographs/_extra_edge_gadgets.py:adapt_edge_index", "src/nographs/_extra_edge_gadgets.py:adapt_edge_iterable"]}
{"id": "C46", "title": "Position.wrap_to_cuboid and is_in_cuboid", "statement": "wrap_to_cuboid returns, per coordinate, the unique value within the limits that is congruent modulo the size of the limit range; positions inside the cuboid are unchanged; is_in_cuboid holds for the result.", "quantifier": "every position and all non-empty limits", "why_tests_cant": "All integers.", "anchors": ["src/nographs/_extra_matrix_gadgets.py:Position.wrap_to_cuboid", "src/nographs/_extra_matrix_gadgets.py:Position.is_in_cuboid"]}
{"id": "C47", "title": "Position.moves and neighbors", "statement": "moves returns, without repetition and in ascending order, exactly the vectors over {-1,0,1} of the given dimension with an allowed number of non-zero coordinates; neighbors applies them and stays in the limits; the neighbor relation without limits is symmetric.", "quantifier": "every number of dimensions, all options", "why_tests_cant": "All dimensions.", "anchors": ["src/nographs/_extra_matrix_gadgets.py:Position.moves", "src/nographs/_extra_matrix_gadgets.py:Position.neighbors"]}
{"id": "C48", "title": "Array access laws", "statement": "Array[p] = x changes exactly the cell p; items() enumerates every cell once in lexicographic order with its content; findall returns exactly the positions with matching content; mutable_copy is independent and equal.", "quantifier": "every array built from nested sequences (for writes: where no sequence object occurs at two places), every position, every history of writes", "why_tests_cant": "All shapes and histories.", "anchors": ["src/nographs/_extra_matrix_gadgets.py:Array"]}
{"id": "C49", "title": "is_tree only removes bookkeeping", "statement": "If the part of the graph reachable from the start vertices is a tree (each vertex has exactly one path from the start), option is_tree does not change the reports of the traversal.", "quantifier": "every graph whose reachable part is a tree, strategies as modelled", "why_tests_cant": "All trees.", "anchors": ["src/nographs/_strategies/traversals/without_weights/breadth_first.py:TraversalBreadthFirstFlex._traverse"]}
{"id": "C50", "title": "Configuration errors are detected", "statement": "start_from raises RuntimeError iff both or neither of start_vertex and start_vertices are given; constructors raise RuntimeError iff not exactly one neighbor function is given.", "quantifier": "all argument combinations", "why_tests_cant": "Finite, but stated for all values.", "anchors": ["src/nographs/_strategies/traversals/traversal.py:Traversal._start_from", "src/nographs/_strategies/traversals/without_weights/traversal_without_weights.py:_create_unified_next", "src/nographs/_strategies/traversals/with_weights/traversal_with_weights.py:_create_unified_next_weighted"]}
{"id": "C51", "title": "A depth range costs only one further vertex", "statement": "go_for_depth_range consumes at most one vertex beyond the reported ones (as documented).", "quantifier": "every graph, every pair of bounds", "why_tests_cant": "All graphs and bounds; refuted by a counterexample.", "anchors": ["src/nographs/_strategies/traversals/without_weights/breadth_first.py:TraversalBreadthFirstFlex.go_for_depth_range"]}
{"id": "C52", "title": "go_for_vertices_in finds all vertices also if vertices are reported repeatedly", "statement": "If the traversal reports vertices more than once, go_for_vertices_in still stops only after all requested vertices have been found.", "quantifier": "every sequence of reports, every requested set", "why_tests_cant": "All sequences; refuted by a counterexample.", "anchors": ["src/nographs/_strategies/traversals/traversal.py:Traversal.go_for_vertices_in"]}
{"id": "C53", "title": "known_distances restricts Dijkstra to improvements", "statement": "With option known_distances, TraversalShortestPaths reports exactly the vertices for which a walk from the start vertices exists whose weight sum is, at each vertex it enters, smaller than the known distance of this vertex; each once, in non-decreasing order of distance, with the least weight of such a walk.", "quantifier": "every graph with non-negative weights, every mapping of known distances (non-negative for start vertices), every list of start vertices, every gear", "why_tests_cant": "All graphs and known distances.", "anchors": ["src/nographs/_strategies/traversals/with_weights/shortest_paths.py:TraversalShortestPathsFlex.start_from", "src/nographs/_strategies/utils.py:define_distances"]}
{"id": "C54", "title": "A* with any heuristic covers the graph and stores true distances", "statement": "For every heuristic, TraversalAStar reports only reachable vertices, each with the weight of some walk; on a finite reachable graph it ends (or raises OverflowError), and then each reachable vertex that is no start vertex has been reported with its minimal distance at some time, and attribute distances holds the minimal distances.", "quantifier": "every graph with non-negative weights, every heuristic, every list of start vertices, every gear, every consumed prefix", "why_tests_cant": "All graphs, heuristics and prefixes.", "anchors": ["src/nographs/_strategies/traversals/with_weights/a_star.py:TraversalAStarFlex._traverse"]}
{"id": "C55", "title": "A* with consistent heuristics visits each vertex once, also with infinite estimations", "statement": "With a consistent heuristic, where some values are infinite (for vertices that do not reach the goal), each vertex is reported only once and depth belongs to the stored shortest path (as documented).", "quantifier": "every graph, every consistent heuristic", "why_tests_cant": "All graphs and heuristics; refuted by a counterexample.", "anchors": ["src/nographs/_strategies/traversals/with_weights/a_star.py:TraversalAStarFlex._traverse"]}
{"id": "C56", "title": "A* reports vertices ordered by path length", "statement": "TraversalAStar reports vertices ordered by increasing path length (as documented).", "quantifier": "every graph, every consistent heuristic", "why_tests_cant": "All graphs and heuristics; refuted by a counterexample.", "anchors": ["src/nographs/_strategies/traversals/with_weights/a_star.py:TraversalAStarFlex._traverse"]}
{"id": "C57", "title": "Minimum spanning tree traversal prefers edges found more recently", "statement": "Among edges with equal weight, TraversalMinimumSpanningTree prefers the ones that have been found more recently (as documented).", "quantifier": "every graph with equal weights", "why_tests_cant": "All graphs; refuted by a counterexample.", "anchors": ["src/nographs/_strategies/traversals/with_weights/minimum_spanning_tree.py:TraversalMinimumSpanningTreeFlex._traverse"]}
{"id": "C58", "title": "TraversalNeighborsThenDepth goes on at the vertex reported last", "statement": "After the neighbors of a vertex have been reported, the next vertex expanded is the one that was reported last (or, if there is none, is the last start vertex) among those not expanded so far.", "quantifier": "every graph, every list of start vertices, every consumed prefix", "why_tests_cant": "All graphs and prefixes.", "anchors": ["src/nographs/_strategies/traversals/without_weights/neighbors_then_depth.py:TraversalNeighborsThenDepthFlex._traverse"]}
{"id": "C59", "title": "skip_expanding_entered_vertex prunes exactly the edges of the entered vertex", "statement": "If the consumer of a depth first traversal in mode DFS_TREE calls skip_expanding_entered_vertex when a vertex has been reported as entered, the neighbor function is not called for this vertex, is called for each other entered vertex, and every vertex reachable without the edges of the skipped vertices is still entered.", "quantifier": "every graph, every choice of skipped vertices, every set of reported events", "why_tests_cant": "All graphs and all interactions of the consumer with the generator.", "anchors": ["src/nographs/_strategies/traversals/without_weights/depth_first.py:TraversalDepthFirstFlex.skip_expanding_entered_vertex", "src/nographs/_strategies/traversals/without_weights/depth_first.py:TraversalDepthFirstFlex._traverse_with_trace"]}
{"id": "C60", "title": "Event FORWARD_OR_CROSS_EDGE is reported if requested", "statement": "If event FORWARD_OR_CROSS_EDGE is requested, each forward or cross edge is reported with this event (as documented).", "quantifier": "every graph", "why_tests_cant": "All graphs; refuted by a counterexample.", "anchors": ["src/nographs/_strategies/traversals/without_weights/depth_first.py:TraversalDepthFirstFlex._traverse_with_trace"]}
{"id": "C61", "title": "Event CROSS_EDGE is reported for cross edges only", "statement": "An edge reported with event CROSS_EDGE does not lead to a vertex of the current trace, whichever other events are requested (as documented).", "quantifier": "every graph, every set of reported events", "why_tests_cant": "All graphs and combinations of requested events; refuted by a counterexample.", "anchors": ["src/nographs/_strategies/traversals/without_weights/depth_first.py:TraversalDepthFirstFlex._traverse_with_trace"]}
{"id": "C62", "title": "Event ENTERING_START is reported for entering a start vertex only as start vertex", "statement": "In mode ALL_WALKS, the event is ENTERING_START exactly when the trace has one element.", "quantifier": "every graph", "why_tests_cant": "All graphs; refuted by a counterexample.", "anchors": ["src/nographs/_strategies/traversals/without_weights/depth_first.py:TraversalDepthFirstFlex._traverse_with_trace"]}
{"id": "C63", "title": "ALL_PATHS with several start vertices builds the paths of the traces", "statement": "In mode ALL_PATHS with build_paths, at each entering event, paths delivers the vertices of the trace, for any number of start vertices.", "quantifier": "every graph, every list of start vertices", "why_tests_cant": "All graphs; refuted by a counterexample.", "anchors": ["src/nographs/_strategies/traversals/without_weights/depth_first.py:TraversalDepthFirstFlex._traverse_with_trace"]}
{"id": "C64", "title": "Requesting fewer depth first events only hides reports", "statement": "If two depth first traversals differ only in the requested events, and one requests a subset, its reports are exactly the reports of the other one with an event from this subset: same vertices, events, depths, in the same order.", "quantifier": "every graph, every mode, every set of events and subset of it (where a subset with CROSS_EDGE has BACK_EDGE)", "why_tests_cant": "All graphs and pairs of sets of events.", "anchors": ["src/nographs/_strategies/traversals/without_weights/depth_first.py:TraversalDepthFirstFlex._traverse_with_trace", "src/nographs/_strategies/traversals/without_weights/depth_first.py:TraversalDepthFirstFlex._traverse_without_trace"]}
{"id": "C65", "title": "Topological sort with several start vertices", "statement": "TraversalTopologicalSort reports each vertex after all vertices it depends on, also when a start vertex depends on another start vertex.", "quantifier": "every acyclic graph, every list of start vertices", "why_tests_cant": "All graphs and lists of start vertices; refuted in general by a counterexample, the part that holds is proved.", "anchors": ["src/nographs/_strategies/traversals/without_weights/topological_sort.py:TraversalTopologicalSortFlex._traverse_in_non_tree"]}
{"id": "C66", "title": "Topological sort detects cycles through several start vertices", "statement": "If a cycle can be reached, TraversalTopologicalSort raises RuntimeError, also if several vertices of the cycle are start vertices.", "quantifier": "every graph, every list of start vertices", "why_tests_cant": "All graphs and lists of start vertices; refuted by a counterexample.", "anchors": ["src/nographs/_strategies/traversals/without_weights/topological_sort.py:TraversalTopologicalSortFlex._traverse_in_non_tree"]}
{"id": "C67", "title": "Topological sort reports each vertex once, however often it is given as start vertex", "statement": "TraversalTopologicalSort reports no vertex twice, even if a vertex is given twice as start vertex.", "quantifier": "every graph, every list of start vertices", "why_tests_cant": "All lists of start vertices; refuted by a counterexample.", "anchors": ["src/nographs/_strategies/traversals/without_weights/topological_sort.py:TraversalTopologicalSortFlex._traverse_in_non_tree"]}
{"id": "C68", "title": "Topological sort: depth and paths", "statement": "When TraversalTopologicalSort reports a vertex or calls the neighbor function, depth is the length of a walk from a start vertex; with build_paths, the path of a reported vertex is a real path with this length and the labels of its edges, and stays the same to the end; at the end paths exist exactly for the reported vertices. The neighbor function is called at most once per vertex.", "quantifier": "every graph, every list of distinct start vertices, every set of already visited vertices, every gear, every consumed prefix", "why_tests_cant": "All graphs and prefixes.", "anchors": ["src/nographs/_strategies/traversals/without_weights/topological_sort.py:TraversalTopologicalSortFlex._traverse_in_non_tree", "src/nographs/_paths.py"]}
{"id": "C69", "title": "Bidirectional breadth first search: paths when several vertices have the same id", "statement": "Also if vertex_to_id maps different (equivalent) vertices to the same id, the path returned by BSearchBreadthFirst has as many edges as the returned length, and each of its edges is an edge of the graph.", "quantifier": "every graph given by a pair of mutually inverse neighbor functions, every function vertex_to_id", "why_tests_cant": "All graphs and functions vertex_to_id; refuted by a counterexample.", "anchors": ["src/nographs/_strategies/bidirectional_search/breadth_first.py:BSearchBreadthFirstFlex.start_from", "src/nographs/_path.py:Path.from_bidirectional_search"]}
{"id": "C70", "title": "Bidirectional shortest path search: the result is at most twice the optimum", "statement": "The length returned by BSearchShortestPath.start_from is at most twice the length of any path from a start vertex to a goal vertex.", "quantifier": "every graph with non-negative weights given by mutually inverse edge functions, every list of start and goal vertices, every gear", "why_tests_cant": "All graphs and weights.", "anchors": ["src/nographs/_strategies/bidirectional_search/shortest_path.py:BSearchShortestPathFlex.start_from"]}
{"id": "C71", "title": "Neighbor function of an edge index given as Sequence: vertices that are no index", "statement": "The neighbor functions returned by adapt_edge_index for a Sequence yield nothing for vertices that are no index of the sequence, e.g., for negative numbers.", "quantifier": "every edge index, every vertex", "why_tests_cant": "All indices and vertices; refuted by a counterexample.", "anchors": ["src/nographs/_extra_edge_gadgets.py:adapt_edge_index"]}
{"id": "C72", "title": "Array neighbor functions", "statement": "The neighbor functions returned by Array.next_vertices_from_forbidden and next_edges_from_cell_weights yield exactly the positions inside the array that can be reached by one move (optionally diagonal, optionally wrapped) and whose content is not forbidden or has a weight (with this weight), w.r.t. the content of the array at the time of the call. They never raise an exception. The neighbor relation is symmetric between allowed positions.", "quantifier": "every rectangular array with cells of any dimension and content, every position, every choice of options, every change of contents after the function has been created", "why_tests_cant": "All sizes, dimensions and contents.", "anchors": ["src/nographs/_extra_matrix_gadgets.py:Array.next_vertices_from_forbidden", "src/nographs/_extra_matrix_gadgets.py:Array.next_edges_from_cell_weights"]}
{"id": "C73", "title": "Array.size of arrays without cells", "statement": "Array.size and Array.limits return the number of cells per dimension also for arrays where a dimension has no cells.", "quantifier": "every array", "why_tests_cant": "All arrays; refuted by a counterexample.", "anchors": ["src/nographs/_extra_matrix_gadgets.py:Array.size", "src/nographs/_extra_matrix_gadgets.py:Array.limits"]}
{"id": "C74", "title": "Position arithmetic and Manhattan distance", "statement": "Position.manhattan_distance is a metric on positions of the same dimension, and equals the smallest number of non-diagonal moves between two positions (so that it is an admissible heuristic for grids). Adding and subtracting a vector are inverse to each other, and work coordinate by coordinate.", "quantifier": "every dimension, every position and vector", "why_tests_cant": "All dimensions and coordinates.", "anchors": ["src/nographs/_extra_matrix_gadgets.py:Position"]}
{"id": "C75", "title": "Infinite branching: lazy reading of edges", "statement": "TraversalShortestPathsInfBranchingSorted calls the neighbor function at most once per vertex, with attribute distance being the distance of the vertex, and reads each edge at most once. It reads the next edge of a vertex only if the way over the previously read edge of this vertex is not longer than the way to any vertex still to be reported. After a complete traversal all edges of all reachable vertices have been read.", "quantifier": "every graph with sorted non-negative edge streams, finite or infinite, every list of distinct start vertices, every gear, every consumed prefix", "why_tests_cant": "Infinite inputs, all prefixes.", "anchors": ["src/nographs/_strategies/traversals/with_weights/extra_infinite_branching.py:TraversalShortestPathsInfBranchingSortedFlex._traverse"]}
{"id": "C76", "title": "Infinite branching: the calculation limit of a complete traversal", "statement": "A complete traversal by TraversalShortestPathsInfBranchingSorted stays within combined_calculation_limit if and only if the limit is at least the number of reachable vertices plus the number of their edges. If so, the limit does not change anything; if not, RuntimeError is raised after a prefix of the reports.", "quantifier": "every graph with finitely many reachable vertices and edges and finite non-negative sorted weights, every limit", "why_tests_cant": "All graphs and limits.", "anchors": ["src/nographs/_strategies/traversals/with_weights/extra_infinite_branching.py:TraversalShortestPathsInfBranchingSortedFlex.start_from"]}
{"id": "C77", "title": "Infinite branching: the calculation limit bounds the vertices and edges read so far", "statement": "At any time, the number of vertices and edges, in sum, read from the graph by TraversalShortestPathsInfBranchingSorted is at most combined_calculation_limit (as documented).", "quantifier": "every graph, every limit, every consumed prefix", "why_tests_cant": "All graphs and prefixes; refuted by a counterexample.", "anchors": ["src/nographs/_strategies/traversals/with_weights/extra_infinite_branching.py:TraversalShortestPathsInfBranchingSortedFlex.start_from"]}
{"id": "C78", "title": "Option is_tree together with known_distances", "statement": "If the graph is a tree, option is_tree of TraversalShortestPaths changes nothing about the reports, also if an own mapping (without known distances) is given by known_distances.", "quantifier": "every tree, every mapping for distances", "why_tests_cant": "All trees; refuted by a counterexample.", "anchors": ["src/nographs/_strategies/traversals/with_weights/shortest_paths.py:TraversalShortestPathsFlex.start_from", "src/nographs/_strategies/utils.py:define_distances"]}
{"id": "C79", "title": "Depth first search: paths with array based gears", "statement": "TraversalDepthFirst with build_paths=True delivers, for each reported vertex, a path from a start vertex, also with the gears for int vertices and ids that keep vertices in arrays (GearForIntVerticesAndIDs and its subclasses).", "quantifier": "every graph, every list of start vertices, every gear for int vertices", "why_tests_cant": "All graphs; refuted by a counterexample.", "anchors": ["src/nographs/_strategies/traversals/without_weights/depth_first.py:TraversalDepthFirstFlex._traverse", "src/nographs/_gears.py:GearForIntVerticesAndIDs.vertex_id_to_vertex_mapping"]}
{"id": "C80", "title": "Gears with sequences: specialised code is right", "statement": "For gears that keep sets of vertex ids as byte or bit sequences, or mappings as sequences or arrays, the traversals do the same as for gears with sets and dicts: testing an id, adding it, removing it, and reading, storing or improving the value of a key has exactly the effect of the operation on the set or mapping, for ids inside and beyond the current end of the sequence.", "quantifier": "every id, every content of the collection, every extension size, every default value", "why_tests_cant": "The specialised code has cases for each position of an id relative to the current length and for each bit; tests cover some of them.", "anchors": ["src/nographs/_strategies/traversals/without_weights/breadth_first.py:TraversalBreadthFirstFlex._traverse", "src/nographs/_strategies/traversals/without_weights/depth_first.py:TraversalDepthFirstFlex._traverse_with_trace", "src/nographs/_strategies/traversals/without_weights/topological_sort.py:TraversalTopologicalSortFlex._traverse", "src/nographs/_strategies/traversals/with_weights/shortest_paths.py:TraversalShortestPathsFlex._traverse", "src/nographs/_gear_collections.py:VertexSequenceWrapper"]}
{"id": "C81", "title": "No internal errors with any gear", "statement": "A traversal or search raises only documented errors (calculation limit, infinite distance, cycle, no path), whatever the gear is: in particular, where the code accesses a sequence without handling an index beyond its end, such an index does not occur, so no IndexError and no AssertionError \"should never happen\" is raised. (Shortest paths, A*, bidirectional shortest path, depth first search with all options, topological sort from one start vertex without already visited vertices.)", "quantifier": "every graph, vertex ids, start vertices, options, gear, calculation limit, and number of steps", "why_tests_cant": "Whether an id is beyond the end of a sequence depends on the whole history of the traversal.", "anchors": ["src/nographs/_strategies/traversals/with_weights/shortest_paths.py:TraversalShortestPathsFlex._traverse", "src/nographs/_strategies/traversals/with_weights/a_star.py:TraversalAStarFlex._traverse", "src/nographs/_strategies/traversals/without_weights/depth_first.py:TraversalDepthFirstFlex._traverse_with_trace", "src/nographs/_strategies/traversals/without_weights/topological_sort.py:TraversalTopologicalSortFlex._traverse_in_non_tree", "src/nographs/_strategies/bidirectional_search/shortest_path.py:BSearchShortestPathFlex.start_from"]}
{"id": "C82", "title": "No internal errors: several start vertices, already visited vertices", "statement": "Topological sort with several start vertices, and depth first search or topological sort with already visited vertices, give the same results for all gears, and raise no internal errors.", "quantifier": "every graph, every list of start vertices, every set of already visited vertices, every gear", "why_tests_cant": "All graphs and gears; refuted by counterexamples.", "anchors": ["src/nographs/_strategies/traversals/without_weights/topological_sort.py:TraversalTopologicalSortFlex._traverse_in_non_tree", "src/nographs/_strategies/traversals/without_weights/depth_first.py:TraversalDepthFirstFlex._traverse_with_trace"]}
{"id": "C83", "title": "Start vertices given as iterator", "statement": "Start vertices can be given by start_vertex or by start_vertices, and the latter as a collection or as an iterator that can be read only once: the traversal is the same as for a list of these vertices (same reports, paths, visited vertices, distances). If both or none of the options is used, RuntimeError is raised. The same holds for start and goal vertices of bidirectional searches. (Exceptions: C84.)", "quantifier": "every strategy, list of vertices, way to give them, options", "why_tests_cant": "Whether an iterator is read twice depends on the combination of options and strategy.", "anchors": ["src/nographs/_strategies/traversals/traversal.py:Traversal._start_from", "src/nographs/_strategies/traversals/without_weights/traversal_without_weights.py:TraversalWithoutWeightsWithVisited._start_without_weights_with_visited", "src/nographs/_strategies/traversals/with_weights/shortest_paths.py:TraversalShortestPathsFlex.start_from", "src/nographs/_strategies/bidirectional_search/shortest_path.py:BSearchShortestPathFlex.start_from", "src/nographs/_strategies/utils.py:create_paths"]}
{"id": "C84", "title": "Start vertices given as iterator: infinite branching, bidirectional breadth first search", "statement": "For TraversalShortestPathsInfBranchingSorted and BSearchBreadthFirst, start (and goal) vertices can be given as iterators that can be read only once, for all options.", "quantifier": "every list of vertices, options", "why_tests_cant": "All options; refuted by counterexamples.", "anchors": ["src/nographs/_strategies/traversals/with_weights/extra_infinite_branching.py:TraversalShortestPathsInfBranchingSortedFlex.start_from", "src/nographs/_strategies/bidirectional_search/breadth_first.py:BSearchBreadthFirstFlex.start_from"]}
{"id": "C85", "title": "Stored distances stay in the range of the array", "statement": "If distances are stored in an array of C integers (e.g. gear GearForIntVerticesAndIDsAndCInts), TraversalShortestPaths, TraversalAStar and BSearchShortestPath only store distances that fit in the array, whatever the size of the C type on the platform is: a sum of weights that is not below infinity is reported as OverflowError by the traversal before something is stored.", "quantifier": "every graph with non-negative weights, array type, platform size, options, number of steps", "why_tests_cant": "Needs very long paths, and platforms with other sizes of C types; an unnoticed overflow would lead to wrong distances or to an internal error.", "anchors": ["src/nographs/_strategies/traversals/with_weights/shortest_paths.py:TraversalShortestPathsFlex._traverse", "src/nographs/_strategies/traversals/with_weights/a_star.py:TraversalAStarFlex._traverse", "src/nographs/_strategies/bidirectional_search/shortest_path.py:BSearchShortestPathFlex.start_from", "src/nographs/_gears.py:GearForIntVertexIDsAndCInts"]}
{"id": "C86", "title": "Several ways to take vertices from one traversal", "statement": "A program may call next, go_to and any number of iterators from go_for_vertices_in, go_for_depth_range and go_for_distance_range on one started traversal, in any order. Each report goes to exactly one of these operations, in the order of the traversal; no report is lost or used twice. An operation delivers the last report it has taken and skips none that it looks for. When next or go_to fails, all reports have been taken, and later operations take and deliver nothing. KeyError for a missing vertex is only raised by operations without fail_silently, go_to without fail_silently never fails silently, and an iterator of go_for_vertices_in without fail_silently ends regularly only when it has delivered as many vertices as there are in the set, or after an exception. An exception of the traversal itself reaches at most one operation. An iterator of go_for_vertices_in delivers at most as many vertices as there are in the set. For breadth first search, all delivered vertices together are different, with minimal depths in non-decreasing order.", "quantifier": "every traversal, sequence of operations, sets of vertices, ranges", "why_tests_cant": "The number of interleavings is not bounded.", "anchors": ["src/nographs/_strategies/traversals/traversal.py:Traversal.__next__", "src/nographs/_strategies/traversals/traversal.py:Traversal.__iter__", "src/nographs/_strategies/traversals/traversal.py:Traversal.go_to", "src/nographs/_strategies/traversals/traversal.py:Traversal.go_for_vertices_in", "src/nographs/_strategies/traversals/without_weights/breadth_first.py:TraversalBreadthFirstFlex.go_for_depth_range", "src/nographs/_strategies/traversals/with_weights/traversal_with_weights.py:_TraversalWithDistance.go_for_distance_range"]}
{"id": "C87", "title": "Depth first search in mode ALL_WALKS compares ids with the start vertex", "statement": "TraversalDepthFirst in mode ALL_WALKS reports the event ENTERING_START exactly when it enters a vertex with the id of the start vertex: with vertex_to_id, the events are those of the graph on ids.", "quantifier": "every graph and id function that is compatible with the neighbor function", "why_tests_cant": "All graphs and id functions; refuted by a counterexample.", "anchors": ["src/nographs/_strategies/traversals/without_weights/depth_first.py:TraversalDepthFirstFlex._traverse"]}
{"id": "C88", "title": "Neighbor functions that look at the traversal, keep a state, or fail", "statement": "A neighbor function may look at the traversal object it gets as argument (search-aware graph), give answers from a source of its own, or raise exceptions. TraversalBreadthFirst, TraversalNeighborsThenDepth, TraversalDepthFirst (mode DFS_TREE), TraversalTopologicalSort, TraversalShortestPaths (non-negative weights) and TraversalMinimumSpanningTree ask it at most once for a vertex, and the traversal is the one for the fixed graph formed by the answers: e.g., the depths of a breadth first search are minimal and the distances of TraversalShortestPaths are shortest in this graph. If the function raises an exception, the traversal raises it, and up to then, it has been the traversal of this graph.", "quantifier": "every function from the history, the state of the traversal and the vertex to an exception or a list of edges; all start vertices with different ids, options, numbers of steps", "why_tests_cant": "The behaviour of the function is not bounded; a test can only try few functions.", "anchors": ["src/nographs/_strategies/traversals/without_weights/breadth_first.py:TraversalBreadthFirstFlex._traverse", "src/nographs/_strategies/traversals/without_weights/neighbors_then_depth.py:TraversalNeighborsThenDepthFlex._traverse", "src/nographs/_strategies/traversals/without_weights/depth_first.py:TraversalDepthFirstFlex._traverse", "src/nographs/_strategies/traversals/without_weights/topological_sort.py:TraversalTopologicalSortFlex._traverse", "src/nographs/_strategies/traversals/with_weights/shortest_paths.py:TraversalShortestPathsFlex._traverse", "src/nographs/_strategies/traversals/with_weights/minimum_spanning_tree.py:TraversalMinimumSpanningTreeFlex._traverse", "src/nographs/_strategies/type_aliases.py:NextVertices"]}
{"id": "C89", "title": "Traversals that share one set already_visited", "statement": "If a program gives the same set as option already_visited to several traversals, one after the other (TraversalBreadthFirst, TraversalNeighborsThenDepth, TraversalDepthFirst in mode DFS_TREE with entering events, in any mix, each run to its end or left before), then: no vertex is reported twice in total, no vertex from the set at the beginning is reported, and each traversal reports only what can be reached from its start vertices without entering vertices that were in the set at the beginning. No vertex is lost from the set. If all traversals come to their end, the set contains exactly its original content and what can be reached from the start vertices of all the traversals without entering the original content, and each such vertex that is not a start vertex is reported by exactly one of the traversals.", "quantifier": "every sequence of traversals, with any start vertices, options, gears, calculation limits, and points at which a traversal is left; every graph and initial content of the set", "why_tests_cant": "The number of traversals, their mix, the graph and the points of interruption are not bounded.", "anchors": ["src/nographs/_strategies/traversals/without_weights/breadth_first.py:TraversalBreadthFirstFlex.start_from", "src/nographs/_strategies/traversals/without_weights/breadth_first.py:TraversalBreadthFirstFlex._traverse", "src/nographs/_strategies/traversals/without_weights/neighbors_then_depth.py:TraversalNeighborsThenDepthFlex.start_from", "src/nographs/_strategies/traversals/without_weights/depth_first.py:TraversalDepthFirstFlex.start_from"]}
{"id": "C90", "title": "A traversal object can be started again at any time", "statement": "At any time, a traversal object can be started again at the same or other start vertices, with the same or other options (TraversalBreadthFirst, TraversalNeighborsThenDepth, TraversalDepthFirst, TraversalTopologicalSort, TraversalShortestPaths, TraversalAStar, TraversalMinimumSpanningTree, TraversalShortestPathsInfBranchingSorted). What it reports after a new start, with all attributes, does not depend on what the object has been used for before. If a program goes on to use iterators of earlier starts of the same object (nested loops, or iterators used in turns), each iterator reports the same vertices in the same order and fills the same paths as if the object was used for nothing else, and it ends in the same way (for TraversalTopologicalSort: with is_tree); for the traversals of weighted graphs, also all the attributes at a report are the same.", "quantifier": "every sequence of calls of start_from and of steps of the iterators of all the starts, every start, with all options; an iterator is used for the first time before the object is started again", "why_tests_cant": "The number of starts and interleavings is not bounded, and iterators share attributes of the object.", "anchors": ["src/nographs/_strategies/traversals/traversal.py:Traversal._start_from", "src/nographs/_strategies/traversals/traversal.py:Traversal.__iter__", "src/nographs/_strategies/traversals/without_weights/breadth_first.py:TraversalBreadthFirstFlex._traverse", "src/nographs/_strategies/traversals/without_weights/neighbors_then_depth.py:TraversalNeighborsThenDepthFlex._traverse", "src/nographs/_strategies/traversals/without_weights/depth_first.py:TraversalDepthFirstFlex._traverse", "src/nographs/_strategies/traversals/without_weights/topological_sort.py:TraversalTopologicalSortFlex._traverse", "src/nographs/_strategies/traversals/with_weights/shortest_paths.py:TraversalShortestPathsFlex._traverse", "src/nographs/_strategies/traversals/with_weights/a_star.py:TraversalAStarFlex._traverse", "src/nographs/_strategies/traversals/with_weights/minimum_spanning_tree.py:TraversalMinimumSpanningTreeFlex._traverse", "src/nographs/_strategies/traversals/with_weights/extra_infinite_branching.py:TraversalShortestPathsInfBranchingSortedFlex._traverse", "docs/source/traversals.rst"]}
{"id": "C91", "title": "Nested loops over one traversal object: depth, event, and topological sort", "statement": "While a program executes an inner loop over another start of the same traversal object, the attributes depth and event that the outer loop shows at its reports stay right (TraversalBreadthFirst, TraversalNeighborsThenDepth, TraversalDepthFirst), and the outer loop over a TraversalTopologicalSort still reports each vertex exactly once.", "quantifier": "every graph, start vertices, options, interleaving of the loops", "why_tests_cant": "All interleavings; refuted by counterexamples.", "anchors": ["src/nographs/_strategies/traversals/without_weights/breadth_first.py:TraversalBreadthFirstFlex._traverse", "src/nographs/_strategies/traversals/without_weights/neighbors_then_depth.py:TraversalNeighborsThenDepthFlex._traverse", "src/nographs/_strategies/traversals/without_weights/depth_first.py:TraversalDepthFirstFlex._traverse", "src/nographs/_strategies/traversals/without_weights/topological_sort.py:TraversalTopologicalSortFlex._traverse"]}
{"id": "C92", "title": "Traversals that share one mapping of distances", "statement": "If a program gives the same mapping as option known_distances to several TraversalShortestPaths with non-negative weights and keep_distances, one after the other, and each comes to its end, then after each of them the mapping tells the distances from all start vertices so far (a start vertex that could already be reached before its turn keeps the distance it has), and no distance for other vertices. Each traversal reports exactly the vertices for which it makes the distance smaller (and no start vertex that was not reachable before), each once, in ascending order of distances. If traversals are left early or stopped by a limit, the mapping tells only weights of walks from start vertices: it never claims a distance that is too small.", "quantifier": "every sequence of traversals, with any start vertices, options, gears, limits, and points at which a traversal is left; every graph with non-negative weights, and every initial content of the mapping that tells distances (or weights of walks)", "why_tests_cant": "The number of traversals, the graph and the points of interruption are not bounded.", "anchors": ["src/nographs/_strategies/traversals/with_weights/shortest_paths.py:TraversalShortestPathsFlex.start_from", "src/nographs/_strategies/traversals/with_weights/shortest_paths.py:TraversalShortestPathsFlex._traverse", "src/nographs/_strategies/utils.py:define_distances"]}
{"id": "C93", "title": "Neighbor functions that return iterators, and graphs that change during the traversal", "statement": "A neighbor function may return an iterator (e.g., be a generator) that TraversalBreadthFirst, TraversalNeighborsThenDepth and TraversalShortestPaths (non-negative weights) read edge by edge, while they go on and report vertices. Between two reads, the iterator may look at the traversal, the program that gets the reports may change the graph or anything the iterator depends on, and a read may raise an exception. The traversal behaves as for the fixed graph formed by the edges that have been read, in this order: same reports with all attributes, and the same exception if a read fails. So no vertex is reported twice, breadth first depths are minimal and distances are exact in this graph, and at the end, all of its vertices that can be reached have been reported.", "quantifier": "every behaviour of the iterators, as a function of the time of a read, of the state of the traversal, and of the vertex; all start vertices with different ids, options, limits, numbers of steps", "why_tests_cant": "The behaviour of iterators and programs, and the interleaving of reads and changes, are not bounded.", "anchors": ["src/nographs/_strategies/traversals/without_weights/breadth_first.py:TraversalBreadthFirstFlex._traverse", "src/nographs/_strategies/traversals/without_weights/neighbors_then_depth.py:TraversalNeighborsThenDepthFlex._traverse", "src/nographs/_strategies/traversals/with_weights/shortest_paths.py:TraversalShortestPathsFlex._traverse", "src/nographs/_types.py"]}
{"id": "C94", "title": "Traversals are lazy: which vertices are read, and when", "statement": "At any time, also if the program leaves the traversal before its end: TraversalBreadthFirst has called the neighbor function for the start vertices and then for the reported vertices, in the order of the reports, each once, for nothing else, and when it reports a vertex, only for start vertices and vertices with a smaller depth. TraversalNeighborsThenDepth has called it only for start vertices and reported vertices, none more often than given and reported. TraversalDepthFirst (both entering events requested, any mode, with or without trace) has called it for exactly the vertices whose entering it has reported, in this order, at the depth of the report, except where skip_expanding_entered_vertex has been called. TraversalShortestPaths and TraversalAStar have called it for exactly the vertices they have reported, in this order, at the distance (path length) and depth of the report, besides start vertices, none more often than given. TraversalMinimumSpanningTree has called it for the start vertices and then exactly the reported vertices in the order of the reports. If calculation_limit stops a traversal, the last one of the reported vertices may be missing.", "quantifier": "every graph (also infinite ones), neighbor function, start vertices, options, gears, limits, and number of steps", "why_tests_cant": "Laziness is a claim about every point in time of every run, also on infinite graphs.", "anchors": ["src/nographs/_strategies/traversals/without_weights/breadth_first.py:TraversalBreadthFirstFlex._traverse", "src/nographs/_strategies/traversals/without_weights/neighbors_then_depth.py:TraversalNeighborsThenDepthFlex._traverse", "src/nographs/_strategies/traversals/without_weights/depth_first.py:TraversalDepthFirstFlex._traverse", "src/nographs/_strategies/traversals/with_weights/shortest_paths.py:TraversalShortestPathsFlex._traverse", "src/nographs/_strategies/traversals/with_weights/a_star.py:TraversalAStarFlex._traverse", "src/nographs/_strategies/traversals/with_weights/minimum_spanning_tree.py:TraversalMinimumSpanningTreeFlex._traverse"]}
{"id": "C95", "title": "A bidirectional breadth first search reads only half of the way", "statement": "At any time of a search with BSearchBreadthFirst: if the first neighbor function has been called for a vertex, then the vertex is k edges away from a start vertex, and each path from a start vertex to a goal vertex has more than 2k edges. If the second one has been called for a vertex, it is k edges before a goal vertex, and each path has more than 2k+1 edges.", "quantifier": "every graph (also infinite ones), start and goal vertices, options, gears, limits, and number of steps", "why_tests_cant": "It must hold for all graphs, and for all points in time of all searches.", "anchors": ["src/nographs/_strategies/bidirectional_search/breadth_first.py:BSearchBreadthFirstFlex.start_from", "src/nographs/_strategies/traversals/without_weights/breadth_first.py:TraversalBreadthFirstFlex._traverse"]}
{"id": "C96", "title": "Floats as weights: errors of distances and paths are bounded", "statement": "Weights that are non-negative floats are added with rounding. Nevertheless, TraversalShortestPaths reports for each vertex a finite distance that is at most the exact length of any walk from a start vertex times (1 + 2^-53) for each edge but the first, and at least the exact length of some such walk times (1 - 2^-53) for each edge but the first. With build_paths, the exact length of the delivered path exceeds the exact length of any other walk at most by the corresponding factor. If all weights are multiples of a power of two (e.g. whole numbers), distances below 2^53 times this power (e.g. 2^53) are exact.", "quantifier": "every graph with non-negative float weights (also subnormal, large and infinite ones), every vertex_to_id, gear, option (not is_tree), start vertices, limit and number of steps; every number of bits of the mantissa", "why_tests_cant": "Rounding errors depend on all weights and on the order of additions; tests compare a few sums. The bounds have to hold for all walks and all weights.", "anchors": ["src/nographs/_strategies/traversals/with_weights/shortest_paths.py:TraversalShortestPathsFlex._traverse", "src/nographs/_gears.py:GearForHashableVertexIDsAndFloats", "src/nographs/_gears.py:GearForIntVertexIDsAndCFloats"]}
{"id": "C97", "title": "Gears that store distances as C floats change nothing", "statement": "With a gear that keeps distances in an array of C floats (GearForIntVertexIDsAndCFloats, GearForIntVerticesAndIDsAndCFloats, default type code \"f\"), TraversalShortestPaths reports each reachable vertex exactly once, with the minimal distance. (Refuted: Python floats are rounded when they are stored, and are compared with the numbers that have not been rounded: vertices are missed, or reported again and again. It holds if the sums are C floats.)", "quantifier": "every graph with float weights in the range of C floats, every vertex_to_id, option, start vertices, limit and number of steps", "why_tests_cant": "Whether a sum is rounded up or down depends on the weights; tests with weights that are C floats (e.g. whole numbers) do not see it.", "anchors": ["src/nographs/_gears.py:GearForIntVertexIDsAndCFloats", "src/nographs/_gears.py:GearForIntVerticesAndIDsAndCFloats", "src/nographs/_strategies/traversals/with_weights/shortest_paths.py:TraversalShortestPathsFlex._traverse"]}
{"id": "C98", "title": "A* with floats as weights: the first goal is nearly optimal", "statement": "Weights and estimations that are non-negative floats are added with rounding. If the heuristic never is larger than the exact length of a path to a goal vertex, and no start vertex is a goal, then the first goal vertex that TraversalAStar reports has a finite path_length that is the float sum of a walk to it, and for each walk from a start vertex to a goal vertex, it is at most the exact length of the walk times (1 + 2^-53) for each edge but the first. When the traversal has ended, all reachable vertices, except for start vertices, have been reported, for all heuristics.", "quantifier": "every graph with non-negative float weights, every heuristic as described (or, for the last claim, every heuristic), every vertex_to_id, gear, option (not is_tree), start vertices, limit and number of steps; every number of bits of the mantissa", "why_tests_cant": "Rounding can change the order in which A* expands vertices, for all combinations of weights and estimations; tests see a few.", "anchors": ["src/nographs/_strategies/traversals/with_weights/a_star.py:TraversalAStarFlex._traverse", "src/nographs/_strategies/traversals/with_weights/a_star.py:TraversalAStarFlex.start_from"]}
{"id": "C99", "title": "A* with a consistent heuristic and floats: each vertex is reported once, with the shortest path length", "statement": "If the heuristic is consistent and finite, TraversalAStar reports each vertex only once, and path_length is (nearly) minimal at that time. (Refuted for floats: if small weights vanish when they are added to a large estimation, vertices are reported repeatedly, and with path lengths that are far from minimal. Proved: at the first report, path_length plus the estimation is nearly minimal.)", "quantifier": "every graph with non-negative float weights, every consistent and finite heuristic, every vertex_to_id, gear, option (not is_tree), start vertices, limit and number of steps", "why_tests_cant": "It depends on weights and estimations of different magnitudes whether ties occur that exact arithmetic does not have.", "anchors": ["src/nographs/_strategies/traversals/with_weights/a_star.py:TraversalAStarFlex._traverse"]}
{"id": "C100", "title": "The work of a traversal is linear in the part of the graph that it reads", "statement": "As long as a traversal goes on, the number of passes of its loops is at most a constant plus a fixed number (1 or 2) per out-edge and a fixed number (1, 2 or 4) per vertex, for the start vertices and the vertices reported so far (depth first: the entered and not skipped ones, in all modes; topological sort: for the complete sort). So, the time until a report does not depend on the rest of the graph. If only finitely many vertices can be reached, the traversal is over (it has ended or raised an exception) after a number of passes that is linear in the number of these vertices and of their out-edges: for breadth first, neighbors then depth, depth first (tree mode), topological sort (also if there is a cycle), shortest paths, A* with a consistent heuristic, and minimum spanning tree.", "quantifier": "every finite or infinite graph, weights, options, start vertices, vertex_to_id, gear, already_visited / known_distances, limit and number of passes; the bound for finite graphs for every bound of the out-degrees and every list of the reachable ids (not is_tree)", "why_tests_cant": "Tests cannot show that some graph does not make a traversal handle edges or vertices again and again; measurements give no bounds.", "anchors": ["src/nographs/_strategies/traversals/without_weights/breadth_first.py:TraversalBreadthFirstFlex._traverse", "src/nographs/_strategies/traversals/without_weights/neighbors_then_depth.py:TraversalNeighborsThenDepthFlex._traverse", "src/nographs/_strategies/traversals/without_weights/depth_first.py:TraversalDepthFirstFlex._traverse", "src/nographs/_strategies/traversals/without_weights/topological_sort.py:TraversalTopologicalSortFlex._traverse", "src/nographs/_strategies/traversals/with_weights/shortest_paths.py:TraversalShortestPathsFlex._traverse", "src/nographs/_strategies/traversals/with_weights/a_star.py:TraversalAStarFlex._traverse", "src/nographs/_strategies/traversals/with_weights/minimum_spanning_tree.py:TraversalMinimumSpanningTreeFlex._traverse"]}
{"id": "C101", "title": "Options for paths and additional information do not change what is reported", "statement": "Whether paths are built, whether labels are kept for them, and, for TraversalNeighborsThenDepth, whether the depth is computed, and, for TraversalShortestPaths, whether keep_distances is set, a traversal reports the same vertices in the same order with the same depth, distance, path_length, edge, visited set, calls the neighbor function for the same vertices in the same order, and ends or raises an exception at the same place. TraversalDepthFirst: the same vertices and events, and the same depths and traces if both runs compute them, for all settings of build_paths, labeled edges, compute_depth, compute_trace, compute_on_trace, compute_index. For TraversalShortestPaths with different keep_distances: if weights and already known distances are not negative and, in case of known distances, no start vertex is given twice.", "quantifier": "every graph, weights, start vertices, vertex_to_id, gear, already_visited / known_distances, limit and number of passes, and every two settings of the named options", "why_tests_cant": "keep_distances off overwrites the distance of a settled vertex with zero and relies on this value being smaller than each later one: whether that never suppresses or doubles a vertex depends on all weights and ties.", "anchors": ["src/nographs/_strategies/traversals/without_weights/breadth_first.py:TraversalBreadthFirstFlex._traverse", "src/nographs/_strategies/traversals/without_weights/neighbors_then_depth.py:TraversalNeighborsThenDepthFlex._traverse", "src/nographs/_strategies/traversals/without_weights/depth_first.py:TraversalDepthFirstFlex._traverse", "src/nographs/_strategies/traversals/without_weights/topological_sort.py:TraversalTopologicalSortFlex._traverse", "src/nographs/_strategies/traversals/with_weights/shortest_paths.py:TraversalShortestPathsFlex._traverse", "src/nographs/_strategies/traversals/with_weights/a_star.py:TraversalAStarFlex._traverse", "src/nographs/_strategies/traversals/with_weights/minimum_spanning_tree.py:TraversalMinimumSpanningTreeFlex._traverse"]}
{"id": "C102", "title": "Minimum spanning trees are minimal in every monotone measure, also with floats", "statement": "In graphs with each edge in both directions, the edges that TraversalMinimumSpanningTree reports are minimal not only for the sum of their weights, but for every measure that does not get smaller with the weight (number of edges above some weight, sum of squares, ...): no set of edges that connects all reachable vertices to the start vertices has a smaller total, if it has the same number of edges or if the measure is not negative. In particular, with floats as weights, no such set has a smaller exact (not rounded) total weight.", "quantifier": "every undirected graph, weights (any total order; Python's floats), monotone measure, start vertices, vertex_to_id, gear, option, limit and number of steps, every competing set of edges", "why_tests_cant": "There are exponentially many spanning trees and infinitely many measures; with floats, rounding could change which total is smaller.", "anchors": ["src/nographs/_strategies/traversals/with_weights/minimum_spanning_tree.py:TraversalMinimumSpanningTreeFlex._traverse"]}
{"id": "C103", "title": "The heaviest edge on the way to a vertex is minimal in the paths of TraversalMinimumSpanningTree", "statement": "In every graph, directed or not: for each vertex that TraversalMinimumSpanningTree has reported, the path along reported edges from a start vertex to it (which is also the path that attribute paths delivers) has a heaviest edge that is at most as heavy as the heaviest edge of every other path from a start vertex to the vertex. This holds already when the vertex is reported.", "quantifier": "every directed or undirected, finite or infinite graph, weights (any total order), start vertices, vertex_to_id, gear, option, limit and number of steps, every competing walk", "why_tests_cant": "All walks of the graph to a vertex compete, and there can be infinitely many.", "anchors": ["src/nographs/_strategies/traversals/with_weights/minimum_spanning_tree.py:TraversalMinimumSpanningTreeFlex._traverse"]}
{"id": "C104", "title": "Different strategies agree about the same graph", "statement": "When they have ended, TraversalBreadthFirst, TraversalNeighborsThenDepth, TraversalShortestPaths and TraversalMinimumSpanningTree have reported the same vertices, each one once; TraversalAStar has reported the same set of vertices, whatever the heuristic; TraversalDepthFirst (events ENTERING_START and ENTERING_SUCCESSOR) has reported these vertices and the start vertices. If all weights are one, TraversalShortestPaths reports as distance of a vertex the depth that TraversalBreadthFirst reports. With a consistent heuristic, TraversalAStar reports the lengths of TraversalShortestPaths. BSearchBreadthFirst returns the smallest depth that TraversalBreadthFirst reports for a goal (zero if a start vertex is a goal), and it fails exactly in cases where TraversalBreadthFirst reaches no goal.", "quantifier": "every graph and weights, start and goal vertices, vertex_to_id, gear, options named in the theorems, limits and numbers of passes", "why_tests_cant": "The strategies store and order vertices in entirely different ways; that their answers fit together has to hold for all graphs and all orders of edges.", "anchors": ["src/nographs/_strategies/traversals/without_weights/breadth_first.py:TraversalBreadthFirstFlex._traverse", "src/nographs/_strategies/traversals/without_weights/neighbors_then_depth.py:TraversalNeighborsThenDepthFlex._traverse", "src/nographs/_strategies/traversals/without_weights/depth_first.py:TraversalDepthFirstFlex._traverse", "src/nographs/_strategies/traversals/with_weights/shortest_paths.py:TraversalShortestPathsFlex._traverse", "src/nographs/_strategies/traversals/with_weights/a_star.py:TraversalAStarFlex._traverse", "src/nographs/_strategies/traversals/with_weights/minimum_spanning_tree.py:TraversalMinimumSpanningTreeFlex._traverse"]}
{"id": "C105", "title": "The work of bidirectional searches and of infinite branching is linear in what is read", "statement": "A pass of a loop is the unit of work. BSearchBreadthFirst.start_from does work linear in the edges of the vertices it calls the two neighbor functions for; it ends within work linear in the edges of the vertices that are nearer to the start vertices (to the goal vertices) than half of each way from a start to a goal, each of them counted once, however large or infinite the rest of the graph is. BSearchShortestPath.start_from does work linear in the edges of the vertices it calls the functions for; if vertices have at most d edges, it ends within work linear in d times the number of vertices that are not farther away than some path from a start to a goal is long. TraversalShortestPathsInfBranchingSorted does work linear in the number of edges it reads from the iterators, and in finite graphs linear in the number of vertices and edges.", "quantifier": "every finite or infinite graph, weights, start and goal vertices, vertex_to_id, gear, option, limit and number of passes", "why_tests_cant": "Tests measure single inputs; a missed case (a vertex queued twice, a direction that is not bounded by the other) shows only on graphs that no test uses.", "anchors": ["src/nographs/_strategies/bidirectional_search/breadth_first.py:BSearchBreadthFirstFlex.start_from", "src/nographs/_strategies/bidirectional_search/shortest_path.py:BSearchShortestPathFlex.start_from", "src/nographs/_strategies/traversals/with_weights/extra_infinite_branching.py:TraversalShortestPathsInfBranchingSortedFlex._traverse"]}
{"id": "C106", "title": "The documented program for strongly connected components delivers exactly the components", "statement": "The program tarjan_strongly_connected_components of the documentation, which is built on the events, trace and index of TraversalDepthFirst (and deletes entries of index while the traversal runs), delivers lists of vertices. Each list is a complete strongly connected component of the graph, without repetition, and its vertices can be reached from the start vertices. No vertex is delivered twice. Components come in reverse topological order: edges from a component lead to itself or to components that have been delivered before. When the program has ended, each vertex that can be reached has been delivered. It ends if only finitely many vertices can be reached, and no lookup in it fails.", "quantifier": "every graph, list of start vertices, gear, limit and number of passes (components are right as soon as they are delivered, also in infinite graphs)", "why_tests_cant": "The documentation shows one graph with ten vertices; the low link argument depends on all combinations of tree edges, back edges, forward edges and cross edges, and on what the traversal does with an index the program changes.", "anchors": ["src/nographs/_strategies/traversals/without_weights/depth_first.py:TraversalDepthFirstFlex._traverse", "docs/source/reduction_of_other_problems.rst:tarjan_strongly_connected_components"]}
{"id": "C107", "title": "Articulation points with the documented program", "statement": "The program hopcroft_tarjan_articulation_points of the documentation, applied to an undirected graph and one of its vertices, reports exactly the articulation points of the connected part of the graph around this vertex (possibly several times): a vertex is reported only if, without it, some connected vertices would no longer be connected, and when the program has ended, all such vertices have been reported. It raises no error of its own, and it ends if the connected part is finite.", "quantifier": "all undirected graphs (also infinite, with loops, parallel edges and several components), all start vertices, all numbers of passes, all gears", "why_tests_cant": "A test runs on one graph. That low points of a depth-first search characterise the vertices that cut the graph, in each graph and for each order of edges, is an invariant over all runs.", "anchors": ["docs/source/reduction_of_other_problems.rst:hopcroft_tarjan_articulation_points", "src/nographs/_strategies/traversals/without_weights/depth_first.py:TraversalDepthFirstFlex._traverse"]}
{"id": "C108", "title": "Biconnected components with the documented program", "statement": "The program hopcroft_tarjan_biconnected_components of the documentation, used in the documented way, delivers the biconnected components of the connected part of an undirected graph around a vertex.", "quantifier": "all undirected graphs, all start vertices", "why_tests_cant": "The documented test compares with a result that is wrong itself. Only a definition of the components that is independent of the program shows this.", "anchors": ["docs/source/reduction_of_other_problems.rst:hopcroft_tarjan_biconnected_components", "docs/source/reduction_of_other_problems.rst:hopcroft_tarjan_articulation_points"]}
{"id": "C109", "title": "The documented program for the traveling salesman problem returns an optimal tour", "statement": "The program demo_traveling_salesman of the documentation, given a square matrix with non-negative weights for at least two vertices, returns the length and the vertices of a round trip from vertex 0 that visits each vertex exactly once, and no such round trip is shorter. It always returns a result, and it never raises an exception.", "quantifier": "all square matrices of non-negative weights, of any size from two; all orders in which frozensets deliver their elements; all gears", "why_tests_cant": "A test compares with one known result. That the first reported state at the right depth is a complete tour and that no tour is shorter depends on the order of the reports of the shortest path search in a graph of exponentially many states.", "anchors": ["docs/source/reduction_of_other_problems.rst:demo_traveling_salesman", "src/nographs/_strategies/traversals/with_weights/shortest_paths.py:TraversalShortestPaths"]}
{"id": "C110", "title": "Neighbor functions that look at the search, keep a state, or fail: A* and bidirectional searches", "statement": "A neighbor function may look at the search object it gets as argument, give answers from a source of its own, or raise exceptions. TraversalAStar (with estimations that are finite and consistent with all edges the function gives), BSearchBreadthFirst and BSearchShortestPath (non-negative weights) ask at most once for a vertex (per direction), and the search is the one for the fixed functions formed by the answers: e.g., TraversalAStar reports each vertex at most once and with its distance in the graph of the answers. If all answers of both functions of a bidirectional search are edges of one graph, in whatever order, the result of BSearchBreadthFirst is a shortest path of this graph, and BSearchShortestPath does what it does for ordinary functions for this graph. If a function raises an exception, the search raises it.", "quantifier": "every function from the history, the state of the search, the direction and the vertex to an exception or a list of edges; every gear, start and goal vertices without repetitions and without common ones, calculation limit, number of passes", "why_tests_cant": "A test exercises one function and one history; the claim is about functions with arbitrary memory and arbitrary failure points.", "anchors": ["src/nographs/_strategies/traversals/with_weights/a_star.py:TraversalAStarFlex._traverse", "src/nographs/_strategies/bidirectional_search/breadth_first.py:BSearchBreadthFirstFlex.start_from", "src/nographs/_strategies/bidirectional_search/shortest_path.py:BSearchShortestPathFlex.start_from", "src/nographs/_strategies/type_aliases.py:NextVertices"]}
{"id": "C111", "title": "Documented program: the longest simple path between two vertices", "statement": "The documented program longest_weighted_path(next_edges, start_vertex, goal_vertex) never fails. When it ends, it returns the length of a longest simple path from the start vertex to the goal vertex, and such a path (the length is the sum of the weights of its edges); if there is no such path, it returns (-1, ()). It ends for finite graphs.", "quantifier": "all graphs with weights that are not negative, all start and goal vertices", "why_tests_cant": "The program prunes the traversal of all simple paths by throwing StopIteration into the generator, and adds and subtracts labels of the trace; the result depends on all simple paths of the graph and their order.", "anchors": ["docs/source/reduction_of_other_problems.rst:longest_weighted_path", "src/nographs/_strategies/traversals/without_weights/depth_first.py:TraversalDepthFirstFlex._traverse"]}
{"id": "C112", "title": "Documented program: iterative deepening finds a shortest path", "statement": "The documented program iterative_deepening_dfs(start_vertices, goal_vertices, next_vertices, mode) (the version that starts a search per depth limit) with mode ALL_PATHS or ALL_WALKS returns the vertices of a path with the minimal number of edges from a start vertex to a goal vertex if there is a path, also in infinite graphs, and it returns an empty list if there is none and only finitely many vertices can be reached. It never fails.", "quantifier": "all graphs in which each vertex has finitely many successors, all start and goal vertices, both modes", "why_tests_cant": "The program prunes searches by throwing StopIteration into the generator, and repeats them for all depth limits; the minimality depends on all paths of the graph.", "anchors": ["docs/source/search_aware_graphs.rst:iterative_deepening_dfs", "src/nographs/_strategies/traversals/without_weights/depth_first.py:TraversalDepthFirstFlex._traverse"]}
{"id": "C113", "title": "Documented program: primes by a search in a search-aware graph", "statement": "The documented program that generates primes (TraversalShortestPaths with a neighbor function that uses traversal.distance, started at (1, 1), from whose results those numbers are taken that equal their distance) generates exactly the primes, in ascending order, each of them after finitely many steps; it never ends and never fails. So, read up to the first number above a bound, it gives exactly the primes up to the bound, and this takes finitely many steps.", "quantifier": "all numbers of steps, all bounds, all gears and options build_paths and store of distances", "why_tests_cant": "The generator is infinite, and its edges depend on the distances that the search has found before; a test sees a finite prefix only.", "anchors": ["docs/source/search_aware_graphs.rst:next_edges", "src/nographs/_strategies/traversals/with_weights/shortest_paths.py:TraversalShortestPathsFlex._traverse"]}
{"id": "C114", "title": "Documented programs: primes and divisors by a search in an infinitely branching graph", "statement": "The documented programs that generate primes and other numbers (TraversalShortestPathsInfBranchingSorted with next_edges_prime_search, started at 1) report the numbers from 2 on; those that equal their distance are exactly the primes, the others exactly the numbers that are not prime, both in ascending order, each number after finitely many steps; the search never ends and never fails. If paths are built, then, for a reported number that is not prime, the second vertex of the path from there to the start vertex is a divisor of it other than 1 and the number itself.", "quantifier": "all numbers of steps, all bounds, all gears and options of the traversal", "why_tests_cant": "Each vertex has infinitely many edges, they depend on the distance that the search has found, and the generator is infinite; a test sees a finite prefix only.", "anchors": ["docs/source/reduction_of_other_problems.rst:next_edges_prime_search", "src/nographs/_strategies/traversals/with_weights/extra_infinite_branching.py:TraversalShortestPathsInfBranchingSorted._traverse"]}
{"id": "C115", "title": "Infinite branching with neighbor functions that look at the traversal", "statement": "The iterators that a neighbor function returns to TraversalShortestPathsInfBranchingSorted may look at the traversal whenever an edge is read from them, or keep a state of their own. If no weight they give is negative and the weights that the iterator of a vertex gives are ascending, then no edge is read twice, and the traversal is the one for the fixed graph formed by the edges read: each vertex is reported at most once, with its distance in this graph, in the order of the distances; when the traversal ends, all vertices that can be reached in this graph have been reported. The neighbor function is called at most once for a vertex, and the attribute distance of the traversal is then the distance of the vertex.", "quantifier": "all behaviours of neighbor functions and iterators (without exceptions), all start vertices, limits, gears and options, all numbers of steps", "why_tests_cant": "The edges of the graph depend on the progress of the search, and the search depends on the edges; the number of possible interactions is infinite.", "anchors": ["src/nographs/_strategies/traversals/with_weights/extra_infinite_branching.py:TraversalShortestPathsInfBranchingSorted._traverse"]}
{"id": "C116", "title": "The documented iterative deepening in a single search gives the same results as the one with one search per limit", "statement": "The documentation shows two programs iterative_deepening_dfs: one does a single depth-first search, in a graph that grows during the search, with start vertices that are repeated as long as the graph can grow; the other one starts a new search for each depth limit. In the modes ALL_PATHS and ALL_WALKS, for at least one goal vertex, both return the same: if one returns a trace, the other one returns the same trace, if one reports that there is no way, the other one does, and if one runs forever, the other one does. So a trace returned by the single search is a walk from a start vertex to a goal vertex with the smallest possible number of vertices, and such a walk is found if there is one, also in infinite graphs.", "quantifier": "all graphs, all lists of start and goal vertices, both modes, all numbers of steps", "why_tests_cant": "The programs interleave differently with the traversal and share state (the depth limit, a flag, the trace) between three functions; equality of results must hold for all graphs, cyclic, acyclic or infinite.", "anchors": ["docs/source/search_aware_graphs.rst:iterative_deepening_dfs", "src/nographs/_strategies/traversals/without_weights/depth_first.py:TraversalDepthFirst", "src/nographs/_strategies/traversals/traversal.py:Traversal.go_for_vertices_in"]}
{"id": "C117", "title": "The documented reduction for infinite branching gives the results of the library class, and the primes", "statement": "The documentation shows a function traversal_shortest_paths_inf_branching_sorted, which searches shortest paths in a graph with infinitely many edges per vertex by a search with TraversalShortestPaths in a graph of states. For each graph with sorted edges with non-negative weights, whose edges of a vertex are given for the distance of the vertex, it yields the vertices with the distances that the class TraversalShortestPathsInfBranchingSorted reports, in the same order, and ends or fails when the class does: no vertex comes twice, distances are exact and ascend, and vertices at a distance within which there are finitely many vertices and edges come after finitely many steps. With the graph of the documentation, the values that equal their distance are exactly the primes in ascending order.", "quantifier": "all graphs with finite or infinite sequences of edges per vertex, sorted by non-negative weights, all start vertices, all numbers of steps, all gears, all bounds for the primes", "why_tests_cant": "The result depends on iterators that are shared between calls and on distances that the traversal changes while the graph is read; graphs are infinite, so tests see only a prefix of some of them.", "anchors": ["docs/source/reduction_of_other_problems.rst:traversal_shortest_paths_inf_branching_sorted", "src/nographs/_strategies/traversals/with_weights/shortest_paths.py:TraversalShortestPaths", "src/nographs/_strategies/traversals/with_weights/extra_infinite_branching.py:TraversalShortestPathsInfBranchingSorted"]}
{"id": "C118", "title": "Floats as weights: bounded errors of the bidirectional search of shortest paths", "statement": "Weights that are non-negative floats are added with rounding, and BSearchShortestPath adds them from both ends of a path. Nevertheless, a returned length is finite, and it is the exact length of a path from a start vertex to a goal vertex, up to a factor between (1 - 2^-53) and (1 + 2^-53) for each edge but the first; the delivered path is such a path. The returned length is at most twice the exact length of any path from a start vertex to a goal vertex, up to the same factor. The search fails only if there is no path, and raises OverflowError only if a sum of weights is infinite or above the largest float up to this factor. If all weights are multiples of a power of two (e.g. whole numbers), lengths below 2^53 times this power are exact. It ends if finitely many vertices can be reached from one side.", "quantifier": "every graph with non-negative float weights (also subnormal, large and infinite ones) given by mutually inverse edge functions, every vertex_to_id, gear, option, list of start and goal vertices, limit and number of steps; every other number type with a commutative monotone sum", "why_tests_cant": "Rounding errors depend on all weights of all paths, and on where the two searches meet.", "anchors": ["src/nographs/_strategies/bidirectional_search/shortest_path.py:BSearchShortestPathFlex.start_from"]}
{"id": "C119", "title": "Floats as weights in infinitely branching graphs", "statement": "TraversalShortestPathsInfBranchingSorted with floats as weights, sorted edges and non-negative weights: no vertex is reported twice, vertices are reported in ascending order of their distances, a reported distance is not larger than the weight of an edge from a start vertex to the vertex, and all reachable vertices have been reported when the traversal ends. Where the sums of weights that are needed can be represented exactly (e.g. whole numbers below 2^53), the reported distances are exact.", "quantifier": "every graph given by finite or infinite sorted sequences of edges with non-negative float weights, every gear, distinct start vertices, limit and number of steps; all binary float formats", "why_tests_cant": "Whether a rounded difference plus the subtracted number gives the original number depends on the weights; the tests use whole numbers.", "anchors": ["src/nographs/_strategies/traversals/with_weights/extra_infinite_branching.py:TraversalShortestPathsInfBranchingSortedFlex._traverse"]}
{"id": "C120", "title": "Options of bidirectional searches do not change what is found", "statement": "BSearchBreadthFirst and BSearchShortestPath: whether a path is built (build_path) and whether the edges are given with labels or without has no influence on the returned length, on the vertices the two neighbor functions are called for, on their order, and on whether and how the search ends or raises. With the same build_path, the path has the same vertices with and without labels. With fail_silently, a search that would raise KeyError returns the documented result (length -1 or infinity, empty path) instead; nothing else changes.", "quantifier": "every pair of neighbor functions, gear, start and goal vertices, limit and number of steps; every combination of the options; for BSearchShortestPath every type of weights, also negative or rounded ones", "why_tests_cant": "Tests compare a few searches with some combinations of the options; that two searches never diverge is a statement about all graphs.", "anchors": ["src/nographs/_strategies/bidirectional_search/breadth_first.py:BSearchBreadthFirstFlex.start_from", "src/nographs/_strategies/bidirectional_search/shortest_path.py:BSearchShortestPathFlex.start_from", "src/nographs/_strategies/bidirectional_search/shortest_path.py:BSearchShortestPathFlex._search_failed"]}
{"id": "C121", "title": "Options of the traversal of infinitely branching graphs do not change what is reported", "statement": "TraversalShortestPathsInfBranchingSorted with sorted edges and non-negative weights: the options build_paths and store_distances have no influence on the reported vertices, their order and distances, on the calls of the neighbor function, on the edges that are read from its iterators, and on how the traversal ends (also with a calculation limit or an overflow of distances). The paths do not depend on store_distances, and the stored distances do not depend on build_paths.", "quantifier": "every graph given by finite or infinite sorted sequences of edges with non-negative weights, every gear, distinct start vertices, limit, number of steps and combination of the options", "why_tests_cant": "Tests run few graphs with each option; that two traversals of infinite graphs never diverge cannot be observed.", "anchors": ["src/nographs/_strategies/traversals/with_weights/extra_infinite_branching.py:TraversalShortestPathsInfBranchingSortedFlex.start_from", "src/nographs/_strategies/traversals/with_weights/extra_infinite_branching.py:TraversalShortestPathsInfBranchingSortedFlex._traverse"]}
{"id": "C122", "title": "The order of edges and start vertices does not influence results", "statement": "If two neighbor functions give the same edges in different orders (or some edges repeatedly), and the start vertices are given in different orders, then complete traversals agree: TraversalBreadthFirst reports the same vertices with the same depths, TraversalNeighborsThenDepth the same vertices, TraversalShortestPaths the same vertices with the same distances (and the sequences of depths resp. distances are equal), the edges reported by TraversalMinimumSpanningTree have the same weights, each one equally often, BSearchBreadthFirst returns the same length or fails in the same way, TraversalAStar (also with two different consistent heuristics) reports the same vertices with the same path lengths, and TraversalShortestPathsInfBranchingSorted (edges of equal weight in another order, or some repeatedly) the same vertices with the same distances in equal sequences. Only ties are decided by the order.", "quantifier": "every pair of neighbor functions that give the same set of edges, start vertices with the same set of ids, every gear, all other options and limits, also different ones for the two traversals; every type of weights, also rounded ones", "why_tests_cant": "A test compares one or two orders of a graph; the number of orders is exponential, and the algorithms decide ties by order.", "anchors": ["src/nographs/_strategies/traversals/without_weights/breadth_first.py:TraversalBreadthFirstFlex._traverse", "src/nographs/_strategies/traversals/without_weights/neighbors_then_depth.py:TraversalNeighborsThenDepthFlex._traverse", "src/nographs/_strategies/traversals/with_weights/shortest_paths.py:TraversalShortestPathsFlex._traverse", "src/nographs/_strategies/traversals/with_weights/minimum_spanning_tree.py:TraversalMinimumSpanningTreeFlex._traverse", "src/nographs/_strategies/bidirectional_search/breadth_first.py:BSearchBreadthFirstFlex.start_from", "src/nographs/_strategies/traversals/with_weights/a_star.py:TraversalAStarFlex._traverse", "src/nographs/_strategies/traversals/with_weights/extra_infinite_branching.py:TraversalShortestPathsInfBranchingSortedFlex._traverse"]}
{"id": "C123", "title": "Further edges, start vertices and lower weights never make results worse", "statement": "If a graph is extended by edges (or, for weighted graphs, weights are lowered), and start vertices are added, each vertex that a traversal has reported for the old graph is a start vertex of the new traversal or is reported by it: TraversalBreadthFirst reports it with a depth that is not larger, TraversalShortestPaths with a distance that is not larger, and TraversalNeighborsThenDepth reports it. If BSearchBreadthFirst finds a path in the old graph, it finds one in the new graph, and it is not longer.", "quantifier": "every pair of neighbor functions where the second one gives the edges of the first one and possibly more (or edges with lower weights), every superset of the start vertices (and goal vertices), every gear, all other options and limits, also different ones; every type of weights with monotone addition", "why_tests_cant": "A test compares single graphs; the relation is about all pairs of graphs, and a wrong order of processing can make it fail for few pairs only.", "anchors": ["src/nographs/_strategies/traversals/without_weights/breadth_first.py:TraversalBreadthFirstFlex._traverse", "src/nographs/_strategies/traversals/without_weights/neighbors_then_depth.py:TraversalNeighborsThenDepthFlex._traverse", "src/nographs/_strategies/traversals/with_weights/shortest_paths.py:TraversalShortestPathsFlex._traverse", "src/nographs/_strategies/bidirectional_search/breadth_first.py:BSearchBreadthFirstFlex.start_from"]}
