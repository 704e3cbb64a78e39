{"id": "C01", "title": "Indexed min-heap is a priority queue", "statement": "Starting from IndexdMinHeap::new(n), after any sequence of push, push_unless_contained, pop, update_key, decrease_key to a smaller-or-equal key, increase_key to a larger-or-equal key, clear and drain in which every element index is below n, push is only called for absent indices and the key changing calls only for present ones, no call panics, len/contains_index/get/peek report exactly the abstract content (one element per index, last pushed or updated), and pop removes and returns an element that is <= every element then in the heap.", "quantifier": "every n, every element type with a total order, every legal operation sequence of any length", "why_tests_cant": "the position array and the 4-ary tree must agree after every interleaving of operations; a test sees only a few heap shapes", "anchors": ["engine/src/datastr/index_heap.rs: IndexdMinHeap::{new,len,contains_index,get,peek,pop,push,push_unless_contained,update_key,decrease_key,increase_key,clear,drain}"]}
{"id": "C02", "title": "decrease_key / increase_key ignore a change in the wrong direction", "statement": "As documented on the methods: decrease_key does nothing if the new key is larger than the stored one and increase_key does nothing if it is smaller; in particular a later pop still returns a minimum of the heap.", "quantifier": "every heap reachable by legal operations, every element with a stored index, every new key", "why_tests_cant": "needs a particular heap shape in which a misplaced element becomes visible only several pops later", "anchors": ["engine/src/datastr/index_heap.rs: IndexdMinHeap::{decrease_key,increase_key} (doc comments l.148-149, 156-157)"]}
{"id": "C03", "title": "Timestamped vector behaves like an array that is reset in O(1)", "statement": "For every history of reset, set and index_mut writes on a TimestampedVector, reading an index yields the value written last since the most recent reset, and the default value if there was none; this stays true when the internal u32 timestamp wraps around, however many resets have happened.", "quantifier": "every vector length, every history of any length (including more than 2^32 resets)", "why_tests_cant": "the wraparound needs 2^32 resets between a write and a read of the same cell", "anchors": ["engine/src/datastr/timestamped_vector.rs: TimestampedVector::{new,reset,set,get,index,index_mut}, AtomicDists"]}
{"id": "C04", "title": "Clear-list containers forget everything on clear and nothing otherwise", "statement": "For every history of writes and resets, ClearlistVector and FastClearBitVec read back exactly the writes since the last reset/clear (default/false elsewhere), and the set_bits iterator / clear list never leaks a stale entry into a later epoch.", "quantifier": "every size and every history", "why_tests_cant": "stale entries show up only after particular interleavings of repeated writes and clears", "anchors": ["engine/src/datastr/clearlist_vector.rs: ClearlistVector", "engine/src/datastr/rank_select_map.rs: FastClearBitVec"]}
{"id": "C05", "title": "Bit vector is a set of indices", "statement": "For every history of set, unset, unset_all_around, set_all and clear on BitVec::new(n), get(i) for i < n says whether i is in the abstract set (unset_all_around(i) removes the aligned 64-index window of i), and count_ones returns the number of i < n that are in it.", "quantifier": "every n, every history of operations on indices below n", "why_tests_cant": "word boundaries and the padding bits of the last word are only exercised by particular sizes", "anchors": ["engine/src/datastr/rank_select_map.rs: BitVec::{new,get,set,unset,set_all,clear,count_ones}"]}
{"id": "C06", "title": "Rank map numbers the set bits consecutively", "statement": "RankSelectMap::new(bits): get(i) is None exactly for unset i; for set i, get(i) = Some(r) and at(i) = r where r is the number of set bits below i, so the map is an order preserving bijection between set bits and 0..len, and len is the number of set bits; at_or_next_lower(i) is the number of set bits below-or-at i minus one.", "quantifier": "every bit vector of every size, every index", "why_tests_cant": "the rank is assembled from block prefix sums, word counts and a masked popcount; sizes beyond one block are needed for every boundary", "anchors": ["engine/src/datastr/rank_select_map.rs: RankSelectMap::{new,compile,len,at,at_or_next_lower,get}"]}
{"id": "C07", "title": "Select inverts rank", "statement": "For an InvertableRankSelectMap over any bit vector and any set bit i, inverse(at(i)) = i, without panicking.", "quantifier": "every bit vector of every size, every set bit", "why_tests_cant": "depends on the distribution of set bits over 512-bit blocks and on which of several equal keys binary search returns", "anchors": ["engine/src/datastr/rank_select_map.rs: InvertableRankSelectMap::{new,inverse}"]}
{"id": "C08", "title": "Label heap pops labels in order and keeps the popped ones", "statement": "For every history of push and pop on datastr::heap::Heap: pop returns a maximum of the un-popped elements, popped() holds exactly the elements popped so far and not evicted, and the multiset of elements is preserved by push and pop.", "quantifier": "every history of pushes and pops of any length, every total order", "why_tests_cant": "the live heap and the popped region share one buffer and are rearranged by each push", "anchors": ["engine/src/datastr/heap.rs: Heap::{push,pop,peek,popped,clear}"]}
{"id": "C09", "title": "Node order is a bijection", "statement": "For every permutation, NodeOrder::from_node_order and from_ranks give rank and node functions that are mutually inverse, from_ranks(ranks of o) reproduces o, and reordering a per-node vector by the order and back is the identity.", "quantifier": "every permutation of every size, every node", "why_tests_cant": "one permutation in a test does not separate an order from its inverse (involutions look right)", "anchors": ["engine/src/datastr/node_order.rs: NodeOrder"]}
{"id": "C10", "title": "Stored vectors load back unchanged", "statement": "Writing a Vec of u32/u64/f32/tuples (as bytes), or a bit vector, or a node order, with the Store API and loading it with Load returns an equal value, for every content; file sizes that are not a multiple of the element size are rejected.", "quantifier": "every vector length and content", "why_tests_cant": "byte-level round trips are claims over all contents and lengths", "anchors": ["engine/src/io.rs: Store, Load, Deconstruct, Reconstruct", "engine/src/datastr/rank_select_map.rs: BitVec load"]}
{"id": "C11", "title": "Reversing a graph reverses exactly its arcs", "statement": "OwnedGraph::reversed(g) has for every arc u->v of weight w exactly one arc v->u of weight w (with multiplicity) and nothing else; distances in the reversed graph are the transposed distances.", "quantifier": "every graph (parallel arcs, loops and isolated nodes included)", "why_tests_cant": "quantifies over all graphs; counting sort offsets go wrong only for particular degree patterns", "anchors": ["engine/src/datastr/graph/first_out_graph.rs: FirstOutGraph::reversed / BuildReversed"]}
{"id": "C12", "title": "Permuting a graph preserves it up to renaming", "statement": "permutated(g, order) contains an arc rank(u)->rank(v) of weight w for every arc u->v of weight w with the same multiplicity and no other arcs, and the outgoing arcs of every node are sorted by head.", "quantifier": "every graph and every node order", "why_tests_cant": "needs all permutations and all graphs", "anchors": ["engine/src/datastr/graph/first_out_graph.rs: BuildPermutated::permutated_filtered"]}
{"id": "C13", "title": "Adjacency array construction and lookup agree with the adjacency lists", "statement": "from_adjancecy_lists(l) has exactly the arcs of l in the same order: link_iter(v) yields l[v], degree and num_arcs agree, edge ids are consecutive, edge_indices(u,v) yields exactly the ids of arcs u->v, and the link_id_to_tail mapper maps each edge id to its tail.", "quantifier": "every adjacency list structure", "why_tests_cant": "empty adjacency lists and boundary nodes are where first_out arithmetic breaks", "anchors": ["engine/src/datastr/graph/first_out_graph.rs: from_adjancecy_lists, link_iter, edge_indices, degree", "engine/src/datastr/graph/link_id_to_tail_mapper.rs"]}
{"id": "C14", "title": "Graph transformations preserve shortest distances", "statement": "unify_parallel_edges gives every arc the minimum weight of the arcs parallel to it (capped at INFINITY) and changes nothing else, so no shortest distance changes; line_graph produces exactly one arc per permitted turn and its walks correspond one to one to permitted edge sequences of the input with weight = arc weights plus turn costs.", "quantifier": "every graph, every turn cost function", "why_tests_cant": "quantifies over all graphs, walks and turn tables", "anchors": ["engine/src/datastr/graph.rs: unify_parallel_edges, line_graph"]}
{"id": "C15", "title": "Splitting by rank partitions the arcs", "statement": "ch_split(order) returns an upward and a downward graph on the same node ids such that every arc u->v of the input appears in exactly one of them, with multiplicity: in the upward graph at u if rank(u)<rank(v), otherwise (loops included) reversed in the downward graph at v; so every non-loop arc of both leads to a higher rank.", "quantifier": "every graph and every order", "why_tests_cant": "all graphs and orders", "anchors": ["engine/src/datastr/graph.rs: ch_split"]}
{"id": "C16", "title": "Dijkstra returns the exact shortest distance", "statement": "A Dijkstra server query(from,to) on a graph whose weights are at most INFINITY returns Some(d) with d the minimum total weight over all from-to walks if that minimum is below INFINITY, and no result otherwise.", "quantifier": "every graph, every pair of nodes, every non-negative weight function bounded by INFINITY (zero weights and parallel arcs included)", "why_tests_cant": "minimality quantifies over all walks in all graphs", "anchors": ["engine/src/algo/dijkstra/query/dijkstra.rs: Server::distance", "engine/src/algo/dijkstra/generic_dijkstra.rs: DijkstraRun::{initialize,settle_next_node}", "engine/src/algo/dijkstra.rs: DefaultOps"]}
{"id": "C17", "title": "Dijkstra's reported path is a real shortest path", "statement": "When a Dijkstra query succeeds, node_path() terminates and yields a walk from `from` to `to` along arcs of the graph whose weights can be chosen to sum to exactly the returned distance; the edge path variant yields the arc ids of such a walk.", "quantifier": "every graph, every successful query", "why_tests_cant": "needs the predecessor array to stay acyclic in every reachable state, also with zero weight cycles", "anchors": ["engine/src/algo/dijkstra.rs: DijkstraData::{node_path,edge_path}"]}
{"id": "C18", "title": "Queries on a reused server do not influence each other", "statement": "The distance (and path) a Dijkstra server returns for a query depends only on the query, not on the queries run on the same server object before, whether or not those were stopped early.", "quantifier": "every history of earlier queries of any length, every query", "why_tests_cant": "the search space state is recycled between queries, stale state only matters for special pairs of consecutive queries", "anchors": ["engine/src/algo/dijkstra/query/dijkstra.rs: Server::{query,ranks,one_to_all}", "engine/src/algo/dijkstra/generic_dijkstra.rs: DijkstraRun::initialize"]}
{"id": "C19", "title": "32 bit weight arithmetic never overflows in the searches", "statement": "With all arc weights at most INFINITY = (2^32-1)/2, no addition of labels, weights or tentative distances performed by Dijkstra, by the bidirectional search, by CCH customization or by the CCH query exceeds u32::MAX.", "quantifier": "every graph with weights <= INFINITY, every query, every step of the algorithms", "why_tests_cant": "overflow happens only for extreme weights along particular label combinations; release builds wrap silently", "anchors": ["engine/src/datastr/graph.rs: INFINITY", "engine/src/algo/dijkstra.rs: DefaultOps::link", "engine/src/algo/customizable_contraction_hierarchy/customization.rs", "engine/src/algo/customizable_contraction_hierarchy/query.rs"]}
{"id": "C20", "title": "A* with a consistent potential is exact", "statement": "With a potential that is feasible (w(u,v) + pot(v) >= pot(u) on every arc, 0 at the target, None only for nodes that cannot reach the target) the Dijkstra server with potential returns the same distance as plain Dijkstra.", "quantifier": "every graph, every query, every feasible potential", "why_tests_cant": "quantifies over all potentials", "anchors": ["engine/src/algo/dijkstra/query/dijkstra.rs: Server::distance", "engine/src/algo/a_star.rs: Potential"]}
{"id": "C21", "title": "Bidirectional Dijkstra is exact", "statement": "The bidirectional Dijkstra server returns the exact shortest distance (None iff it is at least INFINITY), for both direction choosing strategies and on reused servers; with a cap, the result is exact whenever the distance is below the cap.", "quantifier": "every graph, every query, both strategies", "why_tests_cant": "the stopping criterion is subtle: it must not fire before the best meeting node has been seen, for any graph", "anchors": ["engine/src/algo/dijkstra/query/bidirectional_dijkstra.rs: Server::distance_with_cap", "engine/src/algo/dijkstra.rs: ChooseMinKeyDir, AlternatingDirs"]}
{"id": "C22", "title": "Nearest neighbour queries return the k closest targets", "statement": "DijkstraNearestNeighbor::query(source,k) returns min(k, number of reachable targets) distinct targets with their exact distances in non-decreasing order, and no unreturned target is closer than a returned one.", "quantifier": "every graph, target set, source and k (including k = 0)", "why_tests_cant": "all graphs, target sets and k", "anchors": ["engine/src/algo/dijkstra/query/nearest_neighbor.rs: DijkstraNearestNeighbor"]}
{"id": "C23", "title": "CCH preprocessing yields a chordal supergraph with an elimination tree", "statement": "For every graph and order the CCH contains every (non-loop) arc of the graph in rank numbering, its upward neighbourhoods are closed under lower triangles (two upward neighbours of a node are adjacent), two ranks are adjacent iff the input graph has a path between them whose inner nodes all have lower rank than both, adjacency lists are strictly sorted, and every upward neighbour of a node is one of its ancestors in the elimination tree, whose parent function is the lowest upward neighbour.", "quantifier": "every graph and every node order", "why_tests_cant": "a property of the whole fill-in process over all graphs and orders", "anchors": ["engine/src/algo/customizable_contraction_hierarchy/contraction.rs: ContractionGraph", "engine/src/algo/customizable_contraction_hierarchy/mod.rs: CCH::{new_from,build_elimination_tree}"]}
{"id": "C24", "title": "CCH customization preserves shortest distances for every metric", "statement": "After customize(cch, metric): every CCH edge weight is at most the weight of each original arc it represents, satisfies the lower triangle inequality, is the length of some real walk in the input graph or infinite, and for every pair of nodes the best up-down path in the customized CCH has exactly the shortest distance of the input graph.", "quantifier": "every graph, order and weight function bounded by INFINITY (one CCH reused for many metrics)", "why_tests_cant": "all graphs, orders and metrics", "anchors": ["engine/src/algo/customizable_contraction_hierarchy/customization.rs: prepare_weights, customize_basic"]}
{"id": "C25", "title": "CCH query is exact", "statement": "The CCH query server returns for every pair exactly the shortest distance in the input graph with the customized metric (None iff it is at least INFINITY), independent of earlier queries on the same server and after update() to another metric.", "quantifier": "every graph, order, metric, pair of nodes and query history", "why_tests_cant": "the elimination tree walk prunes with the tentative distance and relies on arrays being reset exactly on the walked nodes", "anchors": ["engine/src/algo/customizable_contraction_hierarchy/query.rs: Server::distance", "engine/src/algo/customizable_contraction_hierarchy/query/stepped_elimination_tree.rs: EliminationTreeWalk"]}
{"id": "C26", "title": "CCH paths unpack to real shortest paths", "statement": "When a CCH query succeeds, node_path() terminates and yields a walk of the input graph from source to target whose weight is the returned distance; asking again yields the same path.", "quantifier": "every graph, order, metric (zero weights included), every successful query", "why_tests_cant": "unpacking rewrites the shared parent array in place; a loop would need particular zero weight cycles", "anchors": ["engine/src/algo/customizable_contraction_hierarchy/query.rs: Server::{path,unpack_path}", "engine/src/algo/customizable_contraction_hierarchy/mod.rs: unpack_arc"]}
{"id": "C27", "title": "Parallel customization does not depend on the schedule", "statement": "For every separator tree accepted by validate_for_parallelization and every interleaving of the spawned cell tasks, separator based parallel customization computes exactly the weights of the sequential one.", "quantifier": "every CCH, every separator tree over it, every schedule of the tasks", "why_tests_cant": "tests run one schedule; races are possible in principle because weights are shared", "anchors": ["engine/src/algo/customizable_contraction_hierarchy/customization/parallelization.rs: SeperatorBasedParallelCustomization::customize_tree, SeperatorBasedPerfectParallelCustomization::customize_tree"]}
{"id": "C28", "title": "Perfect customization removes only superfluous edges", "statement": "After customize_perfect every remaining edge carries the exact shortest distance between its endpoints, every removed edge has a strictly better detour, and queries on the reduced graphs return the same distances as on the full CCH.", "quantifier": "every graph, order and metric", "why_tests_cant": "all graphs and metrics", "anchors": ["engine/src/algo/customizable_contraction_hierarchy/customization.rs: customize_perfect, customize_perfect_without_rebuild"]}
{"id": "C29", "title": "Rebuilding the reduced graph works for every thread count", "statement": "The parallel rebuild of perfectly customized graphs produces the same adjacency arrays as the sequential rebuild: for every number of threads and every CCH it terminates without panic and keeps exactly the unmodified edges.", "quantifier": "every CCH (including small ones, isolated lowest nodes and directed CCHs), every set of removed edges, every thread count", "why_tests_cant": "chunk boundaries only go wrong for particular edge counts, thread counts and degree patterns", "anchors": ["engine/src/algo/customizable_contraction_hierarchy/customization.rs: rebuild_customized_perfect"]}
{"id": "C30", "title": "CCH potentials are exact distances", "statement": "A CCHPotential initialised with a target returns for every node exactly the shortest distance to the target in the customized metric (None iff at least INFINITY), in whatever order and how often nodes are queried and however many earlier targets were used.", "quantifier": "every graph, order, metric, target history and node query sequence", "why_tests_cant": "lazy evaluation: the result must not depend on the query order", "anchors": ["engine/src/algo/ch_potentials.rs: CCHPotential::{init_with_cch_rank,potential_with_cch_rank}"]}
{"id": "C31", "title": "Contraction hierarchy queries are exact and unpack to paths", "statement": "For an augmented graph with the contraction hierarchy property the CH server's distance is exact; node_path() returns the corresponding path in the input graph.", "quantifier": "every graph, every contraction order, every query", "why_tests_cant": "all graphs, orders and queries", "anchors": ["engine/src/algo/contraction_hierarchy/query.rs: Server::{distance,path}", "engine/src/algo/contraction_hierarchy/mod.rs: contract"]}
{"id": "C32", "title": "RPHAST distances are exact", "statement": "After select(targets) and query(source), distance(t) for each selected target is the exact shortest distance from source (INFINITY if none), regardless of earlier selections and queries; the order in which targets are listed does not matter.", "quantifier": "every CH, selection history, source", "why_tests_cant": "depends on a DFS producing a topological numbering for every selection", "anchors": ["engine/src/algo/rphast.rs: RPHAST::select, RPHASTQuery::query"]}
{"id": "C33", "title": "Hub label distances are exact", "statement": "HubLabels::new(up, down) on a CH answers dist(s,t) with the exact shortest distance, and None iff t is unreachable; labels are sorted by hub and contain each hub once.", "quantifier": "every CH, every pair", "why_tests_cant": "pruning drops labels while later labels are still being built from them", "anchors": ["engine/src/algo/hl.rs: HubLabels::{compute_labels_from_ch,dist,best_hub}"]}
{"id": "C34", "title": "Landmark potentials are feasible lower bounds", "statement": "The ALT potential never exceeds the true distance to the target, is 0 at the target, and satisfies the triangle inequality on every arc, also in graphs where some nodes cannot reach or be reached from the landmarks.", "quantifier": "every graph, landmark set, target and node", "why_tests_cant": "unreachable landmark distances are encoded as INFINITY and saturating arithmetic is used", "anchors": ["engine/src/algo/alt.rs: ALTPotential::potential"]}
{"id": "C35", "title": "Integer travel time functions are periodic, FIFO and bounded by their extrema", "statement": "For a piecewise linear function meeting the documented invariants: eval is periodic, eval at an interpolation point is the stored value, t + eval(t) is non-decreasing in t (FIFO), and lower_bound() <= eval(t) <= upper_bound() for all t.", "quantifier": "every valid function, every time", "why_tests_cant": "integer interpolation rounds; monotonicity must survive the rounding at all times", "anchors": ["engine/src/datastr/graph/time_dependent/piecewise_linear_function.rs: PiecewiseLinearFunction::{eval,evaluate,lower_bound,upper_bound}", "engine/src/datastr/graph/time_dependent/geometry/line.rs: interpolate_at_in_range"]}
{"id": "C36", "title": "Range queries on travel time functions are correct", "statement": "lower_bound_in_range(a..b) is at most eval(t) for all a <= t <= b and is attained; upper_bound_in_range(a..b) is at least eval(t) there and is attained; average(range) lies between the minimum and the maximum of the function and does not panic, for ranges that cross the period as well.", "quantifier": "every valid function, every range", "why_tests_cant": "boundary handling at the period and at interpolation points", "anchors": ["engine/src/datastr/graph/time_dependent/piecewise_linear_function.rs: lower_bound_in_range, upper_bound_in_range, average", "engine/src/datastr/graph/time_dependent/sorted_search_slice_ext.rs"]}
{"id": "C37", "title": "Live traffic overlays keep the FIFO property", "statement": "TDGraph::new completes raw data to valid functions over the whole period. LiveTDGraph::eval and PessimisticLiveTDGraph::eval are FIFO (t + eval(t) non-decreasing) whenever the predicted function is; after the live report has expired the pessimistic value is the predicted one; PessimisticLiveTDGraph::upper_bound(e, now) bounds eval(e, t) for all t >= now; before live_starts_switching_at(e) the value is the larger of prediction and live value.", "quantifier": "every predicted function, live value, expiry time and evaluation time", "why_tests_cant": "case analysis around the switch-over time for all functions", "anchors": ["engine/src/datastr/graph/time_dependent/graph.rs: LiveTDGraph::eval, PessimisticLiveTDGraph::{eval,upper_bound,live_lower_bound}"]}
{"id": "C38", "title": "Time-dependent Dijkstra computes earliest arrivals", "statement": "On a graph of FIFO travel time functions, time-dependent Dijkstra from (source, departure) returns for each settled node the minimum arrival time over all walks.", "quantifier": "every TD graph, source and departure time", "why_tests_cant": "minimality over all walks; relies on FIFO", "anchors": ["engine/src/algo/dijkstra/query/td_dijkstra.rs: TDDijkstraOps", "engine/src/algo/dijkstra/generic_dijkstra.rs"]}
{"id": "C39", "title": "Disconnected-target shortcut never rejects a reachable target", "statement": "CatchDisconnectedTarget::check_target(s,t) returns true whenever t is reachable from s; so wrapping a query server in it never turns an answer into 'no path'.", "quantifier": "every graph, every pair, every history of earlier checks", "why_tests_cant": "the bounded DFS must be sound for all graphs and cut-off positions", "anchors": ["engine/src/algo/dijkstra/query/mod.rs: disconnected_targets::CatchDisconnectedTarget::check_target"]}
{"id": "C40", "title": "Metric merging is a deterministic greedy partition", "statement": "merge(metrics, target_size) returns a partition of the metric indices into groups, non-empty, of count max(min(target_size, k),1) or less; each merge joins a pair of groups with minimal squared distance, and the result does not depend on the thread schedule.", "quantifier": "every list of metrics, target size and schedule", "why_tests_cant": "lower bounds are refined concurrently; schedule independence quantifies over all interleavings", "anchors": ["engine/src/algo/metric_merging.rs: merge"]}
{"id": "C41", "title": "Separator trees cover the nodes and reordering produces valid parallel orders", "statement": "SeparatorTree::new(elimination tree) contains each node exactly once and num_nodes is correct in every subtree; the order returned by reorder_for_seperator_based_customization is a permutation for which the separator tree validates for parallelization.", "quantifier": "every elimination tree", "why_tests_cant": "all trees", "anchors": ["engine/src/algo/customizable_contraction_hierarchy/separator_decomposition.rs: SeparatorTree", "engine/src/algo/customizable_contraction_hierarchy/reorder.rs"]}
{"id": "C42", "title": "Separator based nearest neighbour search finds the nearest targets", "statement": "SeparatorBasedNearestNeighbor::query(source,k) returns the k closest targets just like the Dijkstra based variant.", "quantifier": "every graph, order, metric, target set, source and k >= 1", "why_tests_cant": "the pruning bound is only wrong for particular positions of the source", "anchors": ["engine/src/algo/customizable_contraction_hierarchy/query/nearest_neighbor.rs: SeparatorBasedNearestNeighbor::query"]}
{"id": "C43", "title": "Optional values in sentinel encoding round trip", "statement": "InRangeOption::new(o).value() = o for every option whose payload is not the reserved sentinel, some/none are distinguished for all such payloads, and constructing some(sentinel) is rejected.", "quantifier": "every value of the payload type", "why_tests_cant": "one value out of 2^32 is special", "anchors": ["engine/src/util/in_range_option.rs: InRangeOption"]}
{"id": "C44", "title": "CH preprocessing with witness search preserves distances", "statement": "contract(graph, order) terminates without panic and produces up/down graphs such that for each pair the best up-down path equals the shortest distance in the input graph.", "quantifier": "every graph (parallel arcs included) and order", "why_tests_cant": "shortcuts are omitted based on witness searches over the remaining graph; all graphs and orders", "anchors": ["engine/src/algo/contraction_hierarchy/mod.rs: ContractionGraph::contract_partially, PartialContractionGraph::{insert_or_decrease,shortcut_required}"]}
{"id": "C45", "title": "Bidirectional potentials stay feasible after averaging", "statement": "AveragePotential built from a feasible forward and a feasible backward potential is feasible in both directions in integer arithmetic, so bidirectional A* with it is exact.", "quantifier": "every graph, feasible potential pair", "why_tests_cant": "truncating integer division could break feasibility by one for particular parities", "anchors": ["engine/src/algo/a_star.rs: AveragePotential"]}
{"id": "C46", "title": "one_to_all labels every node with its exact distance", "statement": "After one_to_all(from) the returned view reports for every node the exact distance from `from` (INFINITY iff the node is not reachable by a walk shorter than INFINITY), and node_path yields a shortest path for each reached node, whatever queries ran on the server before.", "quantifier": "every graph, source, node and history", "why_tests_cant": "minimality over all walks of all graphs, for all nodes at once", "anchors": ["engine/src/algo/dijkstra/query/dijkstra.rs: Server::one_to_all, ServerWrapper"]}
{"id": "C47", "title": "ranks reports exactly the nodes at power-of-two positions of the distance order", "statement": "ranks(from, callback) calls the callback with (node, distance, r) exactly for the nodes at positions 2^r of an ordering of all reachable nodes by non-decreasing exact distance.", "quantifier": "every graph, source and history", "why_tests_cant": "quantifies over all graphs; depends on the settle order being the distance order", "anchors": ["engine/src/algo/dijkstra/query/dijkstra.rs: Server::ranks"]}
{"id": "C48", "title": "Bidirectional A* with a pair of potentials", "statement": "The bidirectional server with SymmetricBiDirPotential returns exact distances: with ChooseMinKeyDir for every pair of lower bounds (with improved pruning: feasible potentials). With AlternatingDirs it can return a longer distance than the shortest one even for feasible potentials.", "quantifier": "every graph, pair of potentials and query history", "why_tests_cant": "pruning and stopping interact; wrong answers need a particular shape of the graph and order of keys", "anchors": ["engine/src/algo/a_star.rs: SymmetricBiDirPotential, BiDirPotential::prune_forward_internal", "engine/src/algo/dijkstra/query/bidirectional_dijkstra.rs: Server::distance_with_cap", "engine/src/algo/dijkstra.rs: AlternatingDirs"]}
{"id": "C49", "title": "Lower bounds of live travel times", "statement": "PessimisticLiveTDGraph::live_lower_bound(e, now, until) is a lower bound of eval(e, t) for all t in [now, until].", "quantifier": "every predicted function, live value, expiry time and range", "why_tests_cant": "wrong only for particular positions of the expiry time in the range", "anchors": ["engine/src/datastr/graph/time_dependent/graph.rs: PessimisticLiveTDGraph::live_lower_bound"]}
{"id": "C50", "title": "Nearest neighbour queries on lazily evaluated potentials return the k nearest targets", "statement": "LazyRphastNearestNeighbor::query(source, targets, k) returns k of the given targets with their exact distances (all that can be reached if there are fewer), such that no other target is closer, for one object across any sequence of queries.", "quantifier": "every graph, order, metric, basic or perfect customization, sequence of queries, source, target list (with repetitions) and k >= 1", "why_tests_cant": "the lazily evaluated distances and the heap persist between queries; ties, repetitions and unreachable targets combine arbitrarily", "anchors": ["engine/src/algo/customizable_contraction_hierarchy/query/nearest_neighbor.rs: LazyRphastNearestNeighbor::query", "engine/src/algo/ch_potentials.rs: CCHPotential::potential"]}
{"id": "C51", "title": "The potential of a contraction hierarchy is the exact distance", "statement": "After any sequence of init and potential calls on one CHPotential, potential(node) returns the distance from node to the target of the last init, and None iff no path is shorter than INFINITY; no call panics or loops forever.", "quantifier": "every contraction hierarchy (any order, CH or customized CCH), every sequence of calls", "why_tests_cant": "values are evaluated lazily with an explicit stack and kept between calls; every order of calls gives another evaluation order", "anchors": ["engine/src/algo/ch_potentials.rs: CHPotential::init, CHPotential::potential"]}
{"id": "C52", "title": "The many-to-many potential reports the exact distances to all targets", "statement": "After any sequence of init(targets) and potential(node) calls on one BucketCHPotential (release build, different targets per init), potential(node)[i] is the distance from node to the i-th target of the last init, INFINITY iff no path is shorter than INFINITY; no call panics or loops forever.", "quantifier": "every contraction hierarchy (any order, CH or customized CCH), every list of different targets, every sequence of calls", "why_tests_cant": "buckets are pruned on the fly depending on ranks and weights, and rows are evaluated lazily and kept between calls; a wrong pruning only shows for particular weight combinations and call orders", "anchors": ["engine/src/algo/ch_potentials.rs: BucketCHPotential::init, BucketCHPotential::potential, BucketCHSelectionRun::query, BucketCHSelectionRun::settle_next_node"]}
{"id": "C53", "title": "Bucket based nearest neighbour queries return k nearest targets", "statement": "After any sequence of select_targets (different targets) and query calls on one BCCHNearestNeighbor, query(source, k) returns at most k targets; those at a distance below INFINITY are k nearest selected targets that can be reached (all of them if there are fewer), each with its exact distance; no call panics or loops forever.", "quantifier": "every customized CCH (basic or perfect), every selection, every source and k, every sequence of calls", "why_tests_cant": "which bucket entries are kept depends on pruning with the weights, and the bounded heap and the early end of the bucket scan only go wrong for particular orders of distances", "anchors": ["engine/src/algo/customizable_contraction_hierarchy/query/nearest_neighbor.rs: BCCHNearestNeighbor::new, BCCHNearestNeighbor::select_targets, BCCHNearestNeighborSelectedTargets::query"]}
{"id": "C54", "title": "A* with CH potentials returns exact answers", "statement": "A* guided by the potential of a hierarchy (CHPotential, or CCHPotential of a basic or perfect customization) whose metric is a lower bound of the query metric returns shortest distances and paths; with time-dependent travel times and lower bounds of all breakpoints it returns earliest arrivals; for any sequence of queries on one server.", "quantifier": "every graph, query metric or travel time functions, lower bound metric, order, sequence of queries", "why_tests_cant": "combines lazily evaluated potentials, saturating keys and label corrections; wrong pruning shows only for particular weight constellations", "anchors": ["engine/src/algo/ch_potentials.rs: CHPotential, CCHPotential", "engine/src/algo/a_star.rs: Potential", "engine/src/algo/dijkstra/query/dijkstra.rs: Server::query", "engine/src/algo/dijkstra/query/td_dijkstra.rs"]}
{"id": "C55", "title": "Directed CCHs give the same answers with fewer edges", "statement": "A CCH can be reduced to a directed CCH, which drops, separately for each direction, exactly the edges that have infinite weight under every metric of that topology. Customizing the directed CCH never panics, gives every edge it keeps the weight the full CCH gives it, and loses no edge of finite weight. A query server that is created and updated with ordinary, perfect and directed customizations in any order returns exact distances and simple shortest paths.", "quantifier": "all graphs, node orders, metrics of the same topology (including infinite weights), histories of queries and metric updates", "why_tests_cant": "which edges are dropped depends on one zero-weight customization and must be safe for every later metric; tests try a few metrics", "anchors": ["engine/src/algo/customizable_contraction_hierarchy/mod.rs: CCH::to_directed_cch, DirectedCCH", "engine/src/algo/customizable_contraction_hierarchy/customization.rs: customize_directed, always_infinity", "engine/src/algo/customizable_contraction_hierarchy/customization/directed.rs: customize_directed_basic"]}
{"id": "C56", "title": "Queries that step over low degree nodes are exact", "statement": "A query server that walks through nodes of degree at most two, and through one node of degree three per arc, without putting them into the queue answers every query with a cap exactly whenever some path is no longer than the cap: the answer is the length of a walk from source to target and is not longer than any walk within the cap; without a cap it is the exact distance, and nothing if the target is unreachable. The reported path is a path of the graph, without repeated nodes, no longer than the answer. one_to_all labels every node with its exact distance. Earlier queries on the server never change an answer, and no query fails or runs forever. The graph has to report degrees honestly: a node reported with too small a degree can hide reachable targets.", "quantifier": "all graphs with weights up to infinity, all degree reports that never understate the number of onward arcs, all potentials that are lower bounds, both compile time switches, all histories of queries, all sources, targets and caps", "why_tests_cant": "whether a chain walked without queueing drops a better branch depends on the interplay of degrees, directions, weights and earlier labels; tests see a handful of road networks", "anchors": ["engine/src/algo/dijkstra/gen_topo_dijkstra.rs: TopoDijkstraRun, settle_next_node, SymmetricDegreeGraph", "engine/src/algo/ch_potentials/query.rs: SkipLowDegServer::distance_with_cap, one_to_all, node_path"]}
{"id": "C57", "title": "The core of a graph is entered only through bridges, and queries on the renamed graph are exact", "statement": "The virtual topocore of every nonempty graph is computed without failing: a node order that lists the nodes of a largest biconnected component first, and for every other node a bridge. Every chain of neighbours (arcs in either direction) from a node outside the core into the core passes the node's bridge, which lies in the core. The query server on the renamed graph without a core phase returns exact distances in the caller's node ids, and nothing for unreachable targets, with shortest paths without repeated nodes, whatever was queried before. Both need a core that contains a node of degree at most two (or is everything), and fewer than 256 arcs per node: without the first a node outside the core counts as a core node, without the second degrees wrap around, and answers get lost.", "quantifier": "all nonempty graphs within u32 sizes, all sorts meeting their contract, with and without debug assertions, all lower bound potentials, all histories of queries", "why_tests_cant": "the computation of biconnected components, the numbering and the degree bookkeeping interact for every shape of graph; a wrong boundary only shows on graphs with particular degrees around the articulation points", "anchors": ["engine/src/algo/topocore.rs: virtual_topocore, dfs_pre_order_nodes, biconnected, VirtualTopocore::node_type, bridge_node, VirtualTopocoreGraph", "engine/src/algo/ch_potentials/query.rs: Server::new, distance, node_path"]}
{"id": "C58", "title": "Queries with a separate core phase are exact", "statement": "The query server that first searches the source's component up to its bridge, then the core up to the target's bridge, then the target's component returns the exact distance for all pairs of nodes. This fails: if source and target lie behind the same bridge (or one is the bridge of the other), labels of the first phase stop the third one, and reachable targets are reported unreachable.", "quantifier": "all graphs with a usable core, all consistent potentials, all pairs of nodes, all histories of queries", "why_tests_cant": "the failing pairs are those whose shortest path leaves and enters the core at the same node, rare among random queries on road networks", "anchors": ["engine/src/algo/ch_potentials/query.rs: Server::distance", "engine/src/algo/topocore.rs: new_topo_dijkstra_graphs, bridge_node"]}
{"id": "C59", "title": "Filtering covered ranges keeps exactly the minimal ones", "statement": "filter_covered leaves exactly the ranges that contain no other range of the list, each once, ordered by start (and thereby by end).", "quantifier": "all lists of ranges with start <= end, duplicates included, all orders in which an unstable sort may leave equal ranges", "why_tests_cant": "which range covers which depends on ties in starts and ends and on the state of the ordered map after every prefix of the list", "anchors": ["engine/src/algo/minimal_nonshortest_subpaths.rs: filter_covered"]}
{"id": "C60", "title": "The uniformly bounded stretch search reports exactly the minimal violating subpaths", "statement": "For a path without repeated nodes, find_ubs_violating_subpaths returns exactly the inclusion-minimal subpaths that are longer than the distance d between their ends by more than the threshold for d, in order, each once; in particular nothing iff no subpath violates the bound. For a node sequence with repeated nodes it returns exactly the pairs of consecutive visits of the same node. It never fails, and what was asked before has no influence.", "quantifier": "all graphs, all paths of length below infinity, all threshold functions that do not decrease with the distance (epsilon times distance among them), all histories of calls; with debug assertions for positive arc weights", "why_tests_cant": "there are quadratically many subpaths and only two search trees per round; that every minimal violation is found depends on how the trees of all rounds and the cached path parents relate to the path", "anchors": ["engine/src/algo/minimal_nonshortest_subpaths.rs: MinimalNonShortestSubPathsDijkstra, find_ubs_violating_subpaths, tree_find_minimal_nonshortest, path_parent, reset_path_parent_cache, path_dists"]}
{"id": "C61", "title": "Unpacked CCH shortest paths towards a target are shortest paths of the graph", "statement": "With positive arc weights, whatever init, potential and unpack_path calls were made before on one CCHPotentialWithPathUnpacking: potential(node) is the exact distance to the current target, unpack_path(node) succeeds for every node that reaches the target, and afterwards following target_shortest_path_tree from the node is a path of input arcs to the target whose length is exactly this distance. The same holds for the backward variant with all arcs reversed. (With arcs of weight 0 the tree may contain a cycle that never reaches the target.)", "quantifier": "all graphs, node orders, metrics with positive weights, call histories, targets and nodes, debug and release builds", "why_tests_cant": "the parents are overwritten lazily and recursively, shared between all nodes unpacked so far; whether an overwritten parent breaks an already unpacked path depends on the whole history and on ties between shortest paths", "anchors": ["engine/src/algo/ch_potentials.rs: CCHPotentialWithPathUnpacking, unpack_path, target_shortest_path_tree", "engine/src/algo/ch_potentials.rs: CCHPotData::forward_path_potential, backward_path_potential"]}
{"id": "C62", "title": "The CCH search for violating subpaths lists exactly the minimal ones", "statement": "On a graph with positive weights, whatever paths were searched before with the same MinimalNonShortestSubPaths: for a path without repeated nodes find_ubs_violating_subpaths returns exactly the inclusion-minimal subpaths whose length exceeds the distance of their ends by more than the given threshold, sorted by start, each once; for a path with repeated nodes it returns exactly the consecutive visits of the same node. It never panics, in debug and release builds.", "quantifier": "all graphs, node orders, metrics with positive weights, monotone thresholds, search histories and paths shorter than INFINITY", "why_tests_cant": "the search combines lazily computed CCH potentials, lazily unpacked paths whose parents are overwritten by later calls, and a cache of path parents that must be reset exactly; a stale entry only shows for particular histories and ties", "anchors": ["engine/src/algo/minimal_nonshortest_subpaths.rs: MinimalNonShortestSubPaths::find_ubs_violating_subpaths, tree_find_minimal_nonshortest", "engine/src/algo/ch_potentials.rs: CCHPotentialWithPathUnpacking"]}
{"id": "C63", "title": "Fixing violating subpaths ends and returns a shorter path without violations", "statement": "On a graph with positive weights, whatever was asked before from the same MinimalNonShortestSubPaths: fix_violating_subpaths ends without panicking; it returns None exactly if the path repeats no node and has no subpath longer than the distance of its ends by more than the threshold; otherwise it returns a strictly shorter path of the graph with the same first and last node that repeats no node and has no such subpath.", "quantifier": "all graphs, node orders, metrics with positive weights, monotone thresholds, histories of calls and paths (also with repeated nodes) shorter than INFINITY", "why_tests_cant": "the loop runs until nothing is left to fix, so termination and the join of replaced and kept segments depend on every overlap of violating ranges and on ties between shortest paths", "anchors": ["engine/src/algo/minimal_nonshortest_subpaths.rs: MinimalNonShortestSubPaths::fix_violating_subpaths, fix_violating_subpaths_int", "engine/src/algo/ch_potentials.rs: CCHPotentialWithPathUnpacking"]}
{"id": "C64", "title": "Local optimality is the length of the shortest subpath that is not shortest", "statement": "On a graph with positive weights, whatever was asked before from the same MinimalNonShortestSubPaths: for a path without repeated nodes local_optimality returns the minimum of the path's length and of the lengths of all its subpaths that are not shortest paths, together with the path's length. It never panics.", "quantifier": "all graphs, node orders, metrics with positive weights, histories of calls and simple paths shorter than INFINITY", "why_tests_cant": "only minimal violating subpaths found by a two-sided tree search are compared, so the minimum over all subpaths has to be argued for every path and every tie", "anchors": ["engine/src/algo/minimal_nonshortest_subpaths.rs: MinimalNonShortestSubPaths::local_optimality"]}
{"id": "C65", "title": "A TD-S server can be created for every time-dependent graph", "statement": "Creating the server of the time-dependent sampling heuristic from a valid time-dependent graph and its CCH does not panic and prepares one static metric for each of the four time windows.", "quantifier": "all time-dependent graphs with valid travel time functions, all CCHs, debug and release builds", "why_tests_cant": "the failure depends on how windows lie relative to the period, on constant functions and on overflow checks of the build", "anchors": ["engine/src/algo/time_dependent_sampling.rs: Server::new", "engine/src/datastr/graph/time_dependent/piecewise_linear_function.rs: average"]}
{"id": "C66", "title": "Perfect customization with validities keeps bounds valid", "statement": "customize_perfect_with_validity does not panic and computes the weights of the plain perfect customization. If each given weight is an upper bound of the distance between its ends at all times from its validity on, so is each resulting weight from its resulting validity on. An arc keeps its validity unless its weight decreases, and the resulting validities are among the given ones. This holds for every schedule of the parallel version.", "quantifier": "all graphs, node orders, customized metrics, validities, time-dependent metrics and schedules", "why_tests_cant": "weight and validity are two vectors updated together; a validity taken from the wrong arc only shows at times between the two validities", "anchors": ["engine/src/algo/customizable_contraction_hierarchy/customization/validity.rs: customize_perfect_with_validity"]}
{"id": "C67", "title": "Perfect customization of directed CCHs", "statement": "Given a directed CCH customized with any metric, the perfect customization of directed CCHs never panics, never raises a weight, marks exactly the arcs whose weight became smaller, and every finite new weight is the length of a walk in the hierarchy. So no arc that is a shortest connection of its ends is ever removed. A query server created with the rebuilt customization answers every distance query, after every history of distance and path queries, with the exact shortest distance and reports a simple path of that length. The new weights need not be shortest distances.", "quantifier": "every graph, node order, metric of the same topology, arc of the directed hierarchy, history of queries", "why_tests_cant": "Whether an arc is removed depends on chains of triangles over arcs of two different graphs, and a removed arc matters only for the metrics where it was needed; tests see a few metrics.", "anchors": ["engine/src/algo/customizable_contraction_hierarchy/customization/directed.rs: customize_directed_perfect_without_rebuild", "engine/src/algo/customizable_contraction_hierarchy/customization/directed.rs: customize_directed_perfect"]}
{"id": "C68", "title": "Event stream of link speed estimation", "statement": "Constructing the event stream fails exactly if there are no links or no traces. If link ids are distinct and traces are given in the order of their links, the stream delivers every link up to the last one with traces, each directly followed by exactly its own traces in their order, and then ends. Links after the last one with traces are not delivered: one is dropped silently in every build, two or more make debug builds panic in place of the last trace and are dropped by release builds. A trace of a link that does not occur makes the stream panic after all links were delivered.", "quantifier": "all lists of links and traces (grouped by link, with or without trailing links, or with a trace of an unknown link), debug and release builds", "why_tests_cant": "the merge of two iterators depends on every interleaving of links with and without traces; the order of the look-ahead only shows at group boundaries and at the ends", "anchors": ["engine/src/link_speed_estimates/event_iterator.rs: EventIterator::new", "engine/src/link_speed_estimates/event_iterator.rs: EventIterator::next"]}
