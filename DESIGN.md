# Formal model of rust_road_router in Rocq

## How to read this

All files are in `rocq/theories` (flat):

* `Spec*.v` – specifications that mention no model definition (walks, distances, abstract priority queue,
  abstract array, ...).
* `X.v` (e.g. `Graph.v`, `Dijkstra.v`, `Bidir.v`) – Gallina transcription of the Rust functions. Every
  definition cites the file and lines in /repo it models and names its simplifications.
* `XProof.v` – lemmas. `ExTab.v` – boolean checks used in examples.
* `Props*.v` – the property theorems, `Example`s showing that the hypotheses are met by concrete non
  trivial inputs, and `Print Assumptions`. Theorems named `..._refuted` exhibit a concrete input on which the
  code (model) violates the property.
* `properties.jsonl` – English properties. `MANIFEST.json` – property -> theorem map.
* `seeded/LOG.jsonl` – mutation experiments. `first_failing` names the lemmas whose proof script no longer compiles after the edit.
  `theorems_failed` lists the tested theorems that are in a failing file or depend on one. So "failed" means that the theorem is not
  established for the edited program by the existing proof. It is not a proof that the theorem is false of that program, and
  for an edit with several tested theorems only those that state `claim_broken` are expected to be false.
  Edits that only make a program do less or more work were mostly left out; three such attempts are logged with "none known" as the
  claim. Runs with a wrong theorem name in the batch file were discarded and repeated.

## Conventions

* Node ids, indices, lengths, loop bounds: `nat`. Weights, times and machine words: `N` (or `Z` where the
  Rust type is signed). u32 additions are checked (`cadd`) or modulo 2^32 (`wadd`), so overflow is visible.
* Panics (`assert!`, index out of bounds, `unwrap` on `None`) are an explicit `None` result of the
  modelled function. `unsafe get_unchecked` accesses are modelled as checked ones: the theorem that the
  result is not `None` then contains the absence of out of bounds accesses.
* Loops: structural recursion over the list iterated, or fuel. Running out of fuel is reported as an error,
  and the theorems exclude it.
* `INFINITY = u32::MAX / 2` is `INF = 2147483647`.
* Concurrency (rayon) is modelled by the set of all interleavings of the atomic node steps compatible with
  the fork/join structure.

## Plan per property

| id | modelled | proof method |
|----|----------|--------------|
| C01 | IndexdMinHeap, all operations, positions + data arrays | representation invariant (heap order, position array is the inverse), simulation to an abstract map; induction over the operation list |
| C02 | same | refuted by a concrete heap; the true part (direction respected, and update_key) is C01 |
| C03 | TimestampedVector and AtomicDists with u32 timestamp modulo 2^32 | invariant "entry newer than current implies default", induction over history |
| C04 | ClearlistVector, FastClearBitVec | invariant "non default entries are on the clear list", induction over history |
| C05 | BitVec over 64 bit words (N) | bit level lemmas, induction over history; count after set_all refuted when 64 does not divide n |
| C06 | RankSelectMap | prefix sums = number of set bits below, counting lemmas |
| C07 | InvertableRankSelectMap incl. std binary_search | refuted (two empty blocks), positive theorem under the hypothesis that excludes equal adjacent prefix sums |
| C08 | Heap | multiset + heap order invariant |
| C09 | NodeOrder | permutation lemmas |
| C10 | byte encoding, Store/Load | round trip by induction on length |
| C11-C15 | FirstOutGraph, reversed, permutated, from_adjancecy_lists, edge_indices, unify_parallel_edges, line_graph, ch_split, link_id_to_tail | arcs as multisets (Permutation), walks transported |
| C16-C20 | GenericDijkstra on the heap and timestamped vector models, Server::distance with potentials | label invariants, induction over settle steps; history: any earlier state |
| C21, C45, C48 | bidirectional Dijkstra with AveragePotential / both direction strategies | two label invariants plus meeting invariant |
| C22 | DijkstraNearestNeighbor | settle order invariant; k=0 refuted |
| C23 | CCH contraction, elimination tree | induction over contraction steps |
| C24-C26 | prepare_weights, customize_basic, Server::distance, path, unpack | lower triangle inequality, walk shortening by removing local minima, elimination tree search invariant |
| C27 | cell tasks as node steps; schedules | commutation of independent node steps (every admissible permutation of node steps gives the same weights) |
| C28, C29 | perfect customization, rebuild | upper/intermediate triangles; parallel rebuild refuted on concrete sizes |
| C30, C32, C33, C34 | CCHPotential, RPHAST, HubLabels, ALT | up-down distance lemmas shared with C24 |
| C31, C44 | CH query, contraction | same walk lemmas; path refuted, parallel arcs refuted |
| C35-C38 | integer PLF, live graphs, TD Dijkstra | integer interpolation lemmas, generic label invariants |
| C39 | CatchDisconnectedTarget | reachability invariants of the bounded DFS |
| C40 | metric_merging::merge | partition invariant; schedule independence of lower bound refinement |
| C41, C42 | SeparatorTree, reorder, separator NN | structural induction; NN refuted |
| C43 | InRangeOption | case analysis |
| C44 | ContractionHierarchy::contract, overlay | invariant: the overlay graph keeps distances of the remaining nodes |
| C45, C48 | bidirectional A* with average potentials, direction choice | invariants of both searches; refutations by evaluation |
| C46, C47 | one_to_all, ranks | Dijkstra invariant run to the end; order of settling |
| C49 | PessimisticLiveTDGraph bounds | case analysis over the position of the report; refutation |
| C50 | LazyRphastNearestNeighbor | invariant of the bounded heap, exact potentials |
| C51 | CHPotential (CHPot.v) | ghost list of expanded nodes orders the explicit stack; measure for termination; values by the split of up-down paths |
| C52 | BucketCHSelectionRun and BucketCHPotential (Bucket.v) | ghost buckets before pruning; every pruned entry has a shorter detour; walk down from the peak of an up-down path; recursion on ranks for the rows |
| C53 | BCCHNearestNeighbor (BCCHNN.v) on the buckets of C52 | buckets hold every target once if no path is infinite; the heap of the k best dominates everything scanned; entries skipped by the early end of a scan are dominated by k entries of the same bucket; walk up the elimination tree as invariant |
| C54 | A* server (DijServer.v) with CHPot.v and CCHPot.v | exact distances of a lower bound metric are an admissible potential; C20 and C38 |
| C55 | `to_directed_cch`, `customize_directed`, `customize_directed_basic` (DirCCH.v) | The zero-weight customization marks an arc live exactly if it is built from arcs of the input; liveness is closed under lower triangles, so dead arcs stay infinite under every metric and the directed customization computes the same fixed point on the kept arcs. Queries through the view record of CCHViewProof. |
| C56 | `topo_settle`, `skip_distance`, `skip_one_to_all` (TopoDij.v) | Invariant of the search with a list of pending arcs: every labelled, unqueued node has all its arcs relaxed except the pending ones; walking a chain replaces one pending arc by the next, because the degree report bounds the number of arcs that do not lead back. The frontier lemma of Dijkstra then gives exactness for lower bound potentials. |
| C57 | `dfs`, `biconnected`, `cmp_root`, `virtual_topocore`, `vs_new`, `vs_distance` (VTopo.v) | Invariants of the iterative low point search: the edges above the cut on the stack are those of one subtree, which touches the rest only at the articulation point. The component search keeps every finished component closed under neighbours. Degrees: the symmetric degree of a node bounds the number of its arcs that do not lead back, which is the degree report C56 needs; walks are renamed between the two numberings. |
| C58 | `comp_loop`, `vs_distance true` (VTopo.v) | Counterexample by evaluation of the model, with zero and with exact potentials. For pairs attached to the core at different places: every walk splits at both bridges; each phase is a degree skipping search inside a closed node set with the labels of the earlier phases frozen outside (VTPhaseProof.v, VTCoreProof.v). |
| C59 | `filter_covered` (UBS.v) | Invariant over the sorted prefix: the active map holds the uncovered ranges whose end is not before the current start; a range is marked covered iff a later one in the order lies inside (UBSFilterProof.v). |
| C60 | `note_ranks`, `path_dists`, `path_parent`, `reset_cache`, `scan`, `report`, `tree_step`, `tree_find`, `grow`, `ubs_find` (UBS.v) | Generic proof of the tree search for any pair of exact shortest path trees (UBSTreeProof.v): cached path parents are the first window node up the tree (UBSScanProof.v); the last deviation bounds the minimal violations that end or start there; induction over the shrinking window. Instantiated with the Dijkstra trees (UBSDijProof.v), then filtered by C59 (UBSProof.v). |
| C61 | `pot_data`, `pp_init`, `pp_value`, `pp_unpack`, `pp_follow` (PathPot.v) | Invariant over the parents: of nodes with a potential they are shortest arcs of the customized graph, of flagged nodes original arcs to flagged nodes. Termination of the recursion by the measure (number of nodes nearer to the target, rank of the parent); frame condition: a call changes only nodes nearer to the target. Weights of 0 are refuted by a concrete run. |
| C62 | `cubs_new`, `cubs_find`, `cubs_history` (PathPot.v), with `tree_find` (UBS.v) | The contract between the tree search and its two trees (UBSTreeProof.tree_contract) is met by path unpacking potentials (PathPotProof.target_ok): a ghost tree holds the parents of flagged nodes only and grows. Nodes and ranks are related by CUBSProof.same. |
| C63 | `disjoint`, `fix_follow`, `fix_seg`, `fix_once`, `fix_paths` (PathFix.v) | Every range found can be improved; the fixed prefix is a path to the last pushed node and shorter than the original prefix (PathFixProof.done). The length is the measure of the loop. |
| C64 | `cubs_local` (PathFix.v) | The search with threshold zero lists all minimal subpaths that are not shortest; every such subpath contains a minimal one, and lengths are monotone. |
| C65 | `tds_metric`, `tds_sample`, `tds_new` (TDS.v) with `average` (PLF.v) | Refutation for every graph with an arc: the first window crosses the period (C36_average_across_period_panics). |
| C66 | `vstep`, `vrun`, `customize_with_validity` (Validity.v) with the instructions of CCHPerfect.v | Simulation by the perfect customization for weights; an invariant per arc (bound, origin, change of validity) kept by each of the four relaxations of a triangle. Parallel: each call reads only arcs that are as in the sequential execution at the same call, and its result does not depend on the rest (frame). |
| C67 | directed.rs l.180-302 as folds over nodes, own arcs and triangles (DirPerf.v), sequential | invariant over the cells of both weight vectors: not above the initial weight, flag iff below it, finite weights are lengths of walks (DirPerfProof.v); refutation by a four node graph. Queries: the rebuild lemmas of CCHRebuildProof.v with two different graphs, arcs that are shortest walks are kept with both halves of their unpacking, and only such arcs are ever unpacked (DirPerfView.v) |
| C68 | event_iterator.rs as a state machine over two lists, debug assertion as a flag (EventIter.v); the estimator that consumes the events uses floating point and is not modelled | induction over the groups of a link with its traces (EventProof.v), the specification of the order is SpecEvent.v |

The table is updated as the work proceeds; see the end of this file for the status and trusted base.

## Trusted base

* Coq 8.16.1's kernel (and `vm_compute`, which the kernel uses for the `Example`s and the `_refuted` witnesses).
* Axioms: none. Each `Props*.v` ends every theorem with `Print Assumptions`; every one of them prints "Closed under the
  global context". Only the Coq standard library is imported. (`lia`/`nia` load ssreflect's `Under_rel` module
  type; its parameters may be listed for the loaded libraries, but no theorem depends on them.)
* No `Admitted`, no functors or module types, no plugins, no disabled checks.
* The transcription from Rust to Gallina, which is by hand. Each definition cites the lines it transcribes. The points at which
  the transcription is not literal are:
  * Node, edge and index types are `nat`. `FirstOutGraph::new` asserts that there are fewer than `u32::MAX` nodes and arcs,
    so ids do not wrap; theorems that need it state the size bound (`fits_u32`).
  * Weights and times are `N`/`Z`. Additions that can wrap or panic are written `cadd` (checked: `None` on overflow, the
    behaviour of debug builds) or `wadd` (modulo 2^32). Theorems say "does not overflow" by saying that the result is `Some`.
  * A `while`/`loop` gets fuel. Fuel exhaustion is `None` and the totality theorems exclude it for the stated amount of fuel.
  * `unsafe` unchecked reads and writes are checked reads and writes. Raw allocation, alignment and aliasing are not modelled.
  * Standard library functions with more than one allowed behaviour are quantified over: `sort_unstable_by_key`
    (`sort_contract`: any permutation sorted by key), `binary_search` (`bs_contract`: any index of an equal element),
    rayon's scheduling (any interleaving of the tasks' atomic reads and writes). The concrete binary search is also shown to
    meet its contract.
  * Counters, timers, `report!` and progress output are left out.
  * Floating point is not modelled at all.

## What is modelled

| /repo (engine/src) | model | not covered inside the file |
|---|---|---|
| datastr/index_heap.rs | IndexHeap.v | - |
| datastr/heap.rs | LabelHeap.v | Drop order under panics |
| datastr/timestamped_vector.rs | TsVec.v | atomic orderings other than sequential consistency |
| datastr/clearlist_vector.rs, rank_select_map.rs | TsVec.v (ClearlistVector), BitVec.v, Select.v | raw allocation |
| datastr/node_order.rs | NodeOrder.v | - |
| datastr/graph.rs, graph/first_out_graph.rs, link_id_to_tail_mapper.rs | Graph.v | serde, iterators' laziness |
| datastr/graph/time_dependent/* | PLF.v, TDGraph.v | line_graph, permutated_filtered of TDGraph, statistics |
| io.rs | IO.v | failing writes, concurrent file access |
| util/in_range_option.rs, parts of util.rs | InRange.v, CCH.v | rest of util.rs |
| algo/dijkstra.rs, generic_dijkstra.rs, query/{dijkstra,bidirectional_dijkstra,nearest_neighbor,td_dijkstra,mod}.rs | Dijkstra.v, DijServer.v, Bidir.v, DisTarget.v, TDGraph.v, TopoDij.v | SendTopoDijkstraRun, floating_td_dijkstra.rs |
| algo/a_star.rs | DijServer.v, Bidir.v | - |
| algo/alt.rs | Alt.v | landmark selection |
| algo/contraction_hierarchy/* | CH.v, CHPrep.v | - |
| algo/customizable_contraction_hierarchy/{mod,contraction,customization,query,separator_decomposition,reorder}.rs, customization/{parallelization,validity}.rs, query/stepped_elimination_tree.rs | CCH.v, CCHQuery.v, CCHPar.v, CCHPerfect.v, CCHRebuild.v, SepTree.v, DirCCH.v, DirPerf.v, Validity.v | customization/{ftd,ftd_for_pot}.rs, parallel customization in customization/directed.rs |
| link_speed_estimates/event_iterator.rs | EventIter.v | - |
| algo/ch_potentials.rs | CCHPot.v, PathPot.v (CCHPotentialWithPathUnpacking), CHPot.v, Bucket.v; ch_potentials/query.rs: TopoDij.v (SkipLowDegServer), VTopo.v (Server) | the bidirectional servers of ch_potentials/query.rs, ch_potentials/{penalty,td_query}.rs |
| algo/topocore.rs | VTopo.v (l.16-42, 427-867: dfs_pre_order_nodes, symmetric_degree, biconnected, virtual_topocore, node_type, bridge_node, new_topo_dijkstra_graphs) | preprocess and the Topocore of l.44-425, new_bidir_graphs |
| algo/metric_merging.rs | Merge.v | timing output |
| algo/customizable_contraction_hierarchy/query/nearest_neighbor.rs | NN.v, BCCHNN.v | - |
| algo/hl.rs, rphast.rs | HL.v, Rphast.v | SSE variant |

Not modelled at all: floating_time_dependent/* and algo/catchup* (floating point), td_astar.rs,
traffic_aware*, minimal_nonshortest_subpaths.rs suboptimal_stats, time_dependent_sampling.rs except Server::new, link_speed_estimates except event_iterator.rs, report, experiments, and the
crates other than engine (binaries, importers, visualisation).

## Status

`proved` means that the statement in properties.jsonl, or its refutation where the statement is false of the code, is a theorem;
the note says which. Theorems `_partial` prove less than the statement; what is missing is in the note.

| id | status | theorems | note |
|----|--------|----------|------|
| C01 | proved | 1 | every legal call sequence, any n and order |
| C02 | proved | 1 | the documented behaviour is false of the code: refutation with witness heaps |
| C03 | proved | 2 |  |
| C04 | proved | 2 | ClearlistVector and FastClearBitVec over arbitrary histories |
| C05 | proved | 3 | full claim refuted for set_all+count_ones; proved otherwise |
| C06 | proved | 3 | len refuted after set_all on sizes not divisible by 64 |
| C07 | partial | 2 | Proved for every bit vector history and every binary search unless the bit is the first of its 512-block and the block before is empty; in that case the claim is false (refuted: inverse panics). |
| C08 | proved | 1 | Every history of push, pop, peek, popped, clear and retain, any total preorder. |
| C09 | proved | 3 | NodeOrder from_node_order/from_ranks on every permutation; debug builds accept nothing else. |
| C10 | proved | 9 | Vectors of any plain element type, bit vectors (size rounded up to a multiple of 64, refuted as exact), graphs, node orders, CCHs with their order; bad sizes and truncated files. A CCH stored alone cannot be loaded (refuted). |
| C11 | proved | 2 | exact link lists of the reversed graph, and transposed distances |
| C12 | proved | 1 | for every implementation of sort_unstable_by_key meeting its contract |
| C13 | proved | 4 | for every binary search meeting the std contract; the concrete std algorithm is shown to meet it |
| C14 | proved | 2 |  |
| C15 | proved | 1 |  |
| C16 | proved | 3 | any graph given by its link iterator, any server history; also on adjacency arrays |
| C17 | proved | 3 | node paths and edge id paths |
| C18 | proved | 1 |  |
| C19 | proved | 5 | Every addition of weights, labels and tentative distances in the models of the four algorithms is the checked addition cadd (None = beyond u32::MAX, characterised by C19_checked_addition), and no run fails: any history of Dijkstra queries, any history of bidirectional queries with any cap, customization and perfect customization of every metric, any history of CCH queries, path extractions and metric updates. C19_larger_weights_overflow shows the bound on the weights is needed. |
| C20 | proved | 4 | stronger: admissible lower bounds suffice; also for BaselinePotential, RecyclingPotential, TurnExpandedPotential |
| C21 | proved | 5 | zero potential, both direction choosers, any query history; capped queries; node paths; adjacency arrays with the reversed graph of the code |
| C22 | partial | 2 | proved for every k >= 1; false for k = 0 (refuted): a source that is a target is returned |
| C23 | proved | 4 | Preprocessing (contract) modelled from an adjacency array and a node order; every clause of the statement, plus totality. |
| C24 | proved | 2 | Any metric on the same topology with weights at most INFINITY; customize is total; every clause of the statement. |
| C25 | proved | 1 | Elimination tree query exact for every CCH, every metric and every history of queries, path calls and updates on one server; all labels are reset. |
| C26 | proved | 1 | Unpacked path is a simple path of metric arcs with total weight equal to the distance; repeated path calls return the same path. |
| C27 | proved | 2 | Basic and perfect customization: every interleaving of instruction-level tasks on every validated separator tree, any number of workers: no panic, no deadlock, bounded length, result of the sequential routine. |
| C28 | proved | 3 | Sequential perfect customization and sequential rebuild (feature cch-disable-par); the parallel rebuild is C29, the parallel schedule C27. The reduced graphs contain exactly the edges that are shortest, with unchanged weights; servers and potentials over any mix of basic and perfect customizations are exact. |
| C29 | partial | 7 | Proved: for any two directions, flags and k closures, parallel rebuild = sequential rebuild if (k-1)*ceil(m/k) < m and the lowest node has a forward edge; panics whenever the first condition fails. The full claim is false: refuted for small edge counts, for an isolated lowest node (query panics on the result) and for directed CCHs (backward edge dropped). |
| C30 | proved | 2 | CCHPotential in both directions, after any history of init and potential calls that starts with init; exact distance to the last target or None iff at least INFINITY. Basic customization. CCHPotentialWithPathUnpacking is not modelled. |
| C31 | partial | 5 | Distances: proved for every hierarchy, every history of earlier queries on the same server, and every pair; the meeting node lies on a shortest path; instantiated for customized CCHs. Paths: the claim is false of the code. path() panics for every query between two different nodes (the predecessor walk looks up the arc from the predecessor to itself), and compares ranks with untranslated ids even for from = to; both are proved. |
| C32 | proved | 5 | For every hierarchy (two upward graphs whose up-down lengths are exactly walk lengths and no longer than any walk; every basic and perfect CCH customization is one), every history of selections and queries succeeds and each node of the latest selection gets the exact distance, INFINITY if none. SSERPHASTQuery is not modelled. |
| C33 | proved | 5 | For every hierarchy whose up-down lengths stay below 2^32 label construction succeeds, distances are exact (values >= INFINITY count as none; with lengths below INFINITY None exactly when there is no path), hubs lie on shortest paths, labels are sorted with each hub once. Without the length bound the 32 bit sums overflow (refuted for CCH graphs with INFINITY arcs). |
| C34 | proved | 5 | Graph built from adjacency lists, weights up to INFINITY, any non-empty landmark list. Lower bound, zero at target, arc consistency below INFINITY, at least every triangle bound, exact A*; forward and backward potentials. Landmark selection is not modelled (theorems hold for any landmarks). |
| C35 | proved | 5 | All valid functions (starting at 0, ending at the period with the first value, FIFO), all times. The refutation shows that the check in the constructor does not imply the full-period condition. |
| C36 | partial | 7 | Lower bounds: exact minimum for non-empty ranges ending before two periods and for 0..b with b >= period. Refuted: empty ranges and ranges reaching the second period boundary; upper_bound_in_range always answers INFINITY on non-constant functions; average panics on constants and on every range crossing the period. |
| C37 | proved | 9 | Construction, evaluation, FIFO, expiry, upper bound and switching time for all graphs of valid functions. |
| C38 | proved | 4 | TDGraph, LiveTDGraph and PessimisticLiveTDGraph, after any history of queries, plain and (TDGraph) with any admissible potential. |
| C39 | proved | 2 | Every graph, pair and history; wrapped servers stay exact. The search is also exact when fewer than 201 nodes can reach the target. |
| C40 | proved | 2 | Every list of metrics of equal length, every target size and every interleaving of the spawned tasks (loads, fetch_min, pushes): no infinite execution, no panic, the result is the greedy partition with exactly max(min(target,k),1) groups. Needs that sums of squared differences fit u64; refuted otherwise (five arcs suffice). |
| C41 | proved | 4 | Separator tree covers each node once with right counts; the reorder functions return permutations; reorder_for_seperator_based_customization makes validation succeed on every non-empty graph. Refuted: the empty graph does not validate. |
| C42 | partial | 3 | The claim is false: a nearest target in the source's own cell is missed (refutation). Proved instead: whatever is returned are targets with exact distances; with fewer than eight distinct targets, or at most k, the result is right. |
| C43 | proved | 2 | Any payload type with an equality; the payload types of the code. |
| C44 | partial | 7 | For graphs without parallel arcs (loops allowed), arcs at most K times longer than necessary and K times the largest distance below INFINITY, contract returns for every order and the result is a hierarchy with exact distances (at most 65535 nodes, or whenever the arcs of the result fit into 32 bits). For every graph (parallel arcs included), whenever contract returns, the result is such a hierarchy. The claim that it returns for every graph is false: with parallel arcs it can panic (refutation). overlay() loses paths through the first uncontracted node (refutation). |
| C45 | partial | 4 | consistency proved for all feasible pairs; exactness only when values are not cut off at 0 on shortest walks and no addition overflows; in general refuted with a witness |
| C46 | proved | 1 |  |
| C47 | proved | 1 |  |
| C48 | proved | 4 | exact with ChooseMinKeyDir; AlternatingDirs refuted with a witness |
| C49 | partial | 2 | Proved when the report expires after the range or there is none; otherwise only the minimum with the live value is a bound. The general claim is refuted. |
| C50 | proved | 3 | Backward potential (distances from the source) and forward potential (distances to the node), any history of queries. k = 0 panics (refutation). |
| C51 | proved | 3 | Any hierarchy; instances for CCH (basic and perfect) and for graphs contracted with witness search. |
| C52 | proved | 5 | Any hierarchy; instances for CCH and for graphs contracted with witness search. Debug builds panic (assertion on the wrong node) and repeated targets panic: both proved. |
| C53 | partial | 4 | True when no arc of the backward graph is over-long (no one way streets below shortcuts): entries below INFINITY are k nearest targets. False in general: with one way streets duplicate bucket entries lose a neighbour, and targets that cannot be reached fill up the answer (both refuted). |
| C54 | proved | 3 | Static A* with CHPotential on any hierarchy and with CCHPotential; time-dependent A* with CCHPotential of lower bounds. |
| C55 | proved | 3 | Sequential customization. Directed perfect customization is not covered. |
| C56 | proved | 4 | Static graphs (DefaultOps). Lower bound potentials at most 2^32 - 1 - INF. |
| C57 | proved | 5 | The search of biconnected components, the component search and the server with BCC_CORE = false. The core is not proved to be biconnected itself, only separated. Three theorems show the hypotheses are needed. |
| C58 | partial | 2 | Refuted as stated: with BCC_CORE = true (the default) a target behind the source's own bridge is reported unreachable. Proved for feasible potentials: exact distances and paths for all pairs attached to the core at different places, after any earlier queries between such pairs. |
| C59 | proved | 1 | Modelled with the BTreeMap as ordered association list and the sort given by its contract. |
| C60 | proved | 2 | The Dijkstra based variant. The threshold is any non-decreasing function of the distance, which covers the cast of epsilon * distance; floating point itself is not modelled. The variants on CCH potentials and RPHAST share the tree search (its proof is generic in the trees) but are not instantiated. |
| C61 | proved | 2 | Positive weights, full; for weights of 0 the property fails in the code (parents 1 -> 0 -> 2 -> 1 after unpack_path(1)), shown by the refutation. |
| C62 | proved | 2 | Full for positive weights at most INFINITY; the threshold is any monotone function of the distance (epsilon and f64 rounding are not modelled). C62_naive_search states the same of the naive search for simple paths. |
| C63 | proved | 1 | Full for positive weights at most INFINITY; the threshold is any monotone function of the distance (epsilon and f64 rounding are not modelled). |
| C64 | proved | 1 | Full for positive weights at most INFINITY and simple paths; the result is the pair of lengths whose quotient the code returns as f64. |
| C65 | proved | 1 | The claim is false of the code for every graph with an arc: the window from 22 to 5 o'clock crosses the period and average panics (refutation for all functions, CCHs and builds). |
| C66 | proved | 2 | Sequential execution and every schedule of the parallel one, for every number of workers. |
| C67 | proved | 3 | Sequential execution (feature cch-disable-par). Refuted: the weights need not be distances, unlike for CCHs, because triangles through removed arcs are not looked at. |
| C68 | proved | 5 | Refuted: not every link is delivered, trailing links without traces are dropped. |

## Findings

Behaviour of the code that the work on the model brought to light. "proved" marks the ones with a `_refuted` theorem.

* `IndexdMinHeap` increase/decrease documentation (C02, proved); `BitVec::count_ones` and `RankSelectMap::len` after `set_all` when the
  size is not a multiple of 64 (C05, C06, proved); `InvertableRankSelectMap::inverse` panics for the first bit of a block after an
  empty block (C07, proved); a stored CCH cannot be loaded without its order, bit vector sizes are rounded up (C10, proved).
* `BitVec::new(0)` allocates zero bytes (undefined behaviour by the contract of `alloc_zeroed`), and deallocation uses another
  alignment than allocation. Outside the model.
* PLF: `lower_bound_in_range` is wrong for empty ranges and ranges ending at or after two periods; `upper_bound_in_range` always answers
  INFINITY for non-constant functions; `average` panics on ranges across the period boundary and on constants (C36, proved).
* `PessimisticLiveTDGraph::live_lower_bound` is wrong if the report expires within the range (C49, proved).
* Parallel `rebuild_customized_perfect` panics or differs from the sequential one for small edge counts (C29, proved).
* `PotentialForPermutated::stop_forward/stop_backward` both delegate to `stop`.
* `DijkstraNearestNeighbor` with k = 0 returns a source that is a target (C22, proved).
* CH `path()` panics for every query between different nodes (C31, proved). CH contraction panics on some graphs with
  parallel arcs, and `overlay(count)` loses paths (C44, proved).
* `HubLabels` label weights are not capped at INFINITY, so additions can overflow u32 (C33, proved).
* `customize` of an empty graph's separator tree never validates (C41, proved); perfect parallel customization asserts validity
  only if parallelism is disabled; `Server::update` with a customization of another CCH breaks the arrays.
* Bidirectional A* with average potentials: cut-off at 0 makes it inexact (C45, proved); AlternatingDirs is not exact with
  potentials (C48, proved).
* `alt.rs` farthest landmark selection pushes duplicates and panics when there are fewer reachable nodes than landmarks.
* `SeparatorBasedNearestNeighbor` misses the nearest targets: the lower bound of the cell containing the source is its distance to the
  cell's boundary (C42, proved). Duplicate targets break its binary search ranges; k = 0 panics, as it does in
  `LazyRphastNearestNeighbor` (C50, proved).
* `metric_merging::merge`: sums of weights overflow u64 in debug builds (C40, proved).
* `BCCHNearestNeighbor` returns unreachable targets (at INFINITY) when fewer than k can be reached, and loses a reachable neighbour when an arc of weight INFINITY (a one way street) puts a target twice into a bucket, which makes the scan of the first k entries of that bucket too short (C53, refuted); duplicate terminals panic in `BucketCHSelectionRun` (C52, proved).
* `EventIterator` drops a link after the last one with traces, panics in debug builds if there are two, and panics in all builds for a trace of an unknown link (C68, proved).
* `BucketCHPotential::compute_dists` asserts (debug builds) the flag of the node being computed instead of its neighbour: every node with an upward arc panics (C52, proved).
