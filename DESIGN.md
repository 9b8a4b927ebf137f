# Formal model of VieCut: design

Source: `/repo` (VieCut, C++, pinned commit), read as text. Prover: Rocq/Coq 8.16.1,
standard library only (no mathcomp/std++/Iris is imported, so no foreign axioms).

## Layout

* `rocq/theories/Lib*.v` — list/sum utilities, no code of VieCut.
* `rocq/theories/Spec*.v` — small specifications written without the model (cuts, connectivity,
  finite-map priority queue, equivalence closure, ...).
* `rocq/theories/M_*.v` — models, one file per header; every definition cites file and lines.
* `rocq/theories/P_*.v` — proofs.
* `rocq/theories/Prop_*.v` — property theorems only, with non-vacuity examples and
  `Print Assumptions`.
* `seeded/LOG.jsonl` — wrong programs tried against the theorems.
* `MANIFEST.json` — which theorem stands for which property of `properties.jsonl`.

## Common modelling decisions

* `NodeID`, `EdgeID`, lengths: `nat`; weights: `N` (ideal, unbounded) except where the code
  narrows a value, where `mod 2^32` is written explicitly (queue keys, `NodeWeight` degrees).
  Sums of 64-bit weights that overflow 64 bits are not modelled.
* A C++ object mutated in place is a record returned by the function.
* Loops are folds over lists or recursion on explicit fuel; running out of fuel is `None`, and
  theorems that say "returns `Some`" show that the fuel suffices.
* Out-of-range access / undefined behaviour is an explicit error outcome (`None`) wherever the
  property speaks about it; otherwise the range precondition is a hypothesis.
* Random numbers (`random_functions`) are explicit input streams, universally quantified. The
  iteration order of hash sets and maps is a universally quantified permutation.
* Threads: a state machine with one step per shared-memory access; theorems quantify over all
  schedules (sequentially consistent memory; weaker memory orders are not modelled).

## Naming of theorems

`Cnn_..._partial` — a hypothesis is added that the property does not have; the comment says what
is missing. `Cnn_..._refuted` — the negation of the full statement, with a concrete witness: the
property is false of the modelled code. The full statement is kept as `Cnn_statement` where both
exist.

## Trusted base

* Coq's kernel (and `coqchk`), the `vm_compute` machine for examples and witnesses.
* The correspondence between the model and the C++ text, made by reading. Nothing was run.
* `Print Assumptions` after every property theorem: all are "Closed under the global context"
  (no axioms, neither own nor of the standard library). The seven `library_axioms` that `vcheck`
  lists (`Coq.ssr.ssrunder.Under_rel.*`) are module parameters of a standard library file that is
  loaded but not used by any theorem.

## Modelled code, and how the properties are proved

| id | modelled | how proved |
|----|----------|------------|
| C01 C02 | `union_find.h` completely | forest invariant (rank strictly increases to the root), refinement to the closure of the requested pairs, induction on the history |
| C03 C04 C49 | `parallel/.../union_find.h` as small-step machine | invariant over schedules; C04 obstruction freedom; C49 (acyclic, no lost union) refuted by explicit schedules |
| C05 | `vecMaxNodeHeap.h` (`maxNodeHeap.h` is the same algorithm, not modelled separately) | heap order + index invariant, refinement to finite map |
| C06 C07 | `node_bucket_pq.h`, `fifo_node_bucket_pq.h` | bucket/index invariant, refinement to finite map; order invariant |
| C08 C09 | construction, degrees, weights of `graph_access.h` (partition ids, copy, in-cut flags are not) | induction over the insertion sequence; C09 refuted for stale caches |
| C10 C11 | `contract_graph.h` for static graphs | double-sum identities |
| C12-C15 | `noi_minimum_cut.h`, the cut bookkeeping of `minimum_cut_helpers.h` | maximum-adjacency-order argument on weight functions, induction on rounds; C12 and C13 refuted for keys of 2^32 and more |
| C16 | `matula_approx.h` | as C13; every cut below max(c/2, 1) survives a round; refuted for large weights |
| C17 C18 | `contraction_tests.h` prTests12, prTests34 (sequential) | exchange arguments on cuts; C17 refuted for degrees of 2^32 and more, C18 refuted with parallel edges |
| C19 C20 | `viecut.h`, `padberg_rinaldi.h`, `ks_minimum_cut.h` (value only) | contraction preserves cut values; fuel sufficient |
| C47 | `label_propagation.h`, `remap_cluster`, `findTrivialCuts` | loop invariants |
| C21-C24 C50 | `mutable_graph.h`: construction, edge updates, deleteVertex, contractEdge, contractVertexSet, new_node, new_empty_node (not: flow fields, the sparse/dense merge helpers, simplify) | validity invariant, weight-function refinement by sums over half edges; C23 and C50 refuted outside their guards |
| C25 C26 | `from_graph_access`, `to_graph_access`, `serialize`, `deserialize` | round trip under guard, refutations otherwise |
| C27 C28 | `graph_io.h` readGraphWeighted into the static graph, writeGraphWeighted, writeGraph, fast_atoi, on byte lists (the stream state is the list of remaining lines; partition index only for its bound). An endless loop and a read behind the string end are the outcome `None`, exit is `Some None` | `SpecMetis` says what a METIS file is (comments, header, numerals with single separators, leading and trailing blanks); scanning of numerals and lines by induction; the writer produces such a file; C28 refuted for weighted loops |
| C29 C30 C51 | `push_relabel.h` with `limited` false and the flow in private vectors (the parallel setting): initialisation, push, relabel, gap heuristic, global relabeling, source set, value. Flows are ideal integers. The vertex taken from the level heap and the points of global relabeling are arbitrary, so the label order of the heap and the relabel counter play no part. `mutable_graph.h` getEdgeFlow/addEdgeFlow with problem ids. Not modelled: the early stop of `limited`, the thread-shared `flow_value` limit | preflow, label validity and queue invariants for every step; termination by a potential; max-flow/min-cut argument with the reverse breadth-first search |
| C31-C34 C38 | `measurements.h` flowValue; `kernelization_criteria.h` lowDegreeContraction, highDegreeContraction, triangleDetection, contractIfImproved; `graph_contraction.h` deleteTermEdges, setTerminals; `multicut_problem.h` mapped. One round of a rule (`rule_step`) is rule, contraction, terminals, terminal edges. Not modelled: the NOI, articulation point, equal neighbourhood and flow rules of the same file, the choice of active vertices (any set is allowed) | cost of a block assignment, exchange of one vertex, invariant that every assignment can be made constant on the united pairs without rising; C32-C34 refuted outside their guards |
| C35 C36 | `problem_management.h` multiBranch, singleBranch (children without the pruning by bounds), degreeThreeContraction; `edge_selection.h` findHeavyVertex, findEdgeMultiBranch (exact mode). `contract_edge_std` is contractEdge with the access behind the end resolved as an empty vector | every assignment is reached, after moving the branching vertex to its heaviest terminal if its own was skipped; costs of children and parent correspond; C36 refuted |
| C37 C52 C53 | `maximum_flow.h` maximumIsolatingFlow, maximumSTFlow, nonTerminalFlow (the start vertices of the latter are arbitrary, so highDistanceVertices and the random draws play no part); `graph_contraction.h` contractIsolatingBlocks, setTerminals with the `invalid_flow` flags. `maximum` and `sum` are ideal integers; cpu affinity left out | posimodularity makes the contracted blocks pairwise disjoint minimum isolating sets; every assignment can be made constant on them; sums of isolating cuts bound the optimum; C53 refuted for overlapping sets |
| C39 | `per_thread_problem_queue.h` prepareQueue, pullProblem, addProblem, size as a machine of threads (sequentially consistent memory; the choice of the queue in addProblem and the priority order are arbitrary; not modelled: the flags `sizes[].second`) | ownership invariant of the mutexes, counting of each problem over queues, slot and threads; lock order gives progress; refuted by three executions |
| C41 C61 | `exact_parallel_minimum_cut.h` parallel_modified_capforest as a machine with one step per access to `visited` (sequentially consistent memory; in `any_run` a memory that returns any value), perform_minimum_cut with the value of VieCut as a parameter, the concurrent union-find and the parallel contraction replaced by the sequential ones | each thread scans in maximum adjacency order of the weights it has added up itself, whatever it reads, as long as the two reads of `visited[tgt]` agree; refuted when they disagree; termination by a count of remaining steps; the loop as in C13 |
| C40 | `multiterminal_cut.h` multicut, splitConnectedComponents, `graph_extractor.h` extract_block (mutable graph); branch_multicut is a parameter with an optimality contract, edges carry no flow | extracted graph has the induced weights; the cost of an assignment is the sum over components; restriction and gluing of assignments; index of problem = component number exactly if problems come first |
| C42 | `all_cut_local_red.h` allCutsPrTests12, allCutsPrTests34 (ideal weights) and modified_capforest of C12 | test 1/2: exchanging a block between the sides of a minimum cut, invariant on the degree estimates, refuted in general; test 3/4: simulation by prTests34 of C18; capforest: C12 |
| C43 C60 | `dynamic_mincut.h` initialize, addEdge, removeEdge, the cache of cactuses; `cactus_path.h` findPath; findAllMincuts, NOI, push-relabel and decrementalRebuild are parameters with a contract (`answers`, asked on the graphs of the history; the last two are discharged in C74), hash set order is arbitrary; the shortcut of contractVertexSet for one vertex of high degree, the balanced cut and the timers are left out | invariant: the cactus is sound, separates its vertices and has no smaller cut; in a cactus without cycles every edge is a bridge, findPath returns the tree path and contraction keeps bridges; refuted in general |
| C62 | `equal_neighborhood.h` whole; std::hash and the order std::sort gives equal elements are parameters | row comparison equals weights (`en_same`), twins can be moved together without raising the cost, twin relation is closed under the unions |
| C63 C64 | `find_articulation_points.h` whole, the rule of `kernelization_criteria.h` 89-96 | invariant of the depth first search with its delayed backtracking (`Inv`), edges join comparable vertices; the side of a vertex is closed, so pulling it to the block of that vertex is free |
| C65 | `local_search.h` whole, with the flow solver of C30; permutations, hash orders, queue orders and timeouts are parameters (`choices`) | every noted best move stays exact because moves of neighbours erase it (`ginv`); the two-block graph cuts exactly the edges that the assignment cuts (`cost_split`, `select_once`), then C30 |
| C66 | `balanced_cut_dfs.h`, `most_balanced_minimum_cut.h` findCutFromCactus without printing; the start vertex is a parameter | invariant of the recursive search with the stack as a chain of parents (`sinv`, `binv`); every arc of every fundamental cycle is reached by the two pointers (`slide_ok`); in a cactus a minimum cut crosses one bridge or two edges of one fundamental cycle (`complete_cut`), and each such choice is a minimum cut (`tree_cut`, `arc_cut`); the marking search reaches the whole side because the cactus is connected |
| C67 | `cactus_mincut.h` findAllMincuts (static graph, save_cut) with `minimum_cut_helpers.h` setVertexLocations and the value of updateCut; flowMincut is the parameter `rec`, the start value is a parameter; timers, output file and balanced cut left out | the run is a `chain` of contraction steps, each of which loses only singletons of recorded leaves (`step`, `leaf_lone`); setVertexLocations walks the chain backwards and puts one leaf back at a time (`leaf_step`, `locate_ok`); up to 100 vertices the loop ends only when a round contracts nothing, and then some vertex has degree lambda (`round_ok`, `loop_ok`) |
| C68 | `parallel/coarsening/contraction_tests.h` prTests12, prTests34 as an interleaving machine: one step per access to `contracted`, `finished`, or call of Union; `marked` is private; loop iterations dealt out arbitrarily; sequentially consistent memory; the calls of Union feed the machine of C03; sort3, findHeavyEdges, findHeavyTriangles not modelled | a thread owns the flags it won by compare-and-swap until it uses them (`safe`, `qinv`); hence the tied triangle pairs of all threads are vertex disjoint and can be repaired one by one (`fix_all`); all other pairs are never separated |
| C69 | `problem_management.h` processNewProblem 216-260, `measurements.h` getSolution 35-58; the flows are those of C30, C37 and C52, flowValue that of C31 | a problem is linked to the original graph through its mappings (`linked_to`); after a flow the partition indices separate the terminals, pulled back they are a solution of the same cost |
| C70 | `branch_multicut.h` find_multiterminal_cut 95-127, solveProblem 311-389, branchOnEdge 539-561, `problem_management.h` findBestSolution 262-302, runLocalSearch, updateBound: one move = one call; one MPI rank, no ILP, no timeout, exact mode; simplify, setTerminals, kernelization enter as a result with the contract `kernel_of`, improveSolution with `ls_ok` (C65) | `covered`: the optimum is recorded, pending in the main thread, or the value of a problem in the queue; every move keeps it |
| C71 | `problem_management.h` findBestSolution 262-302 as an interleaving machine, one step per access to a shared variable, the copying loop cell by cell; flowValue as in C31, improveSolution by its contract (C65); sequentially consistent memory | a call is in the critical section exactly if it holds the mutex; a prefix of best_solution agrees with its solution (`inv`); `work` decreases with every step |
| C72 | `recursive_cactus.h` findSTCactus and contract (320-520): contracted complete graph, order from the bucket queue, scan into single vertices and cycles, edges and cycles of the cactus; ideal weights except the queue keys (C08's queue) | crossing minimum cuts make squares (`P_Crossing`); in the chain order minimum cuts are intervals or prefixes; the order of the queue is 0..k,n-1,..,k+1 after the first tie (`order_ok`); runs of the scan are the maximal circular runs (`scan_ok`); path-of-cycles cuts (`chain_cuts`) |
| C73 | `push_relabel.h` with `limited = true` (43-457): partial first labelling, limit test in push, early return, gap and global relabeling as in C29 | bounded breadth-first labels are valid (`lim_relabel_ok`), the flag tells that the excess of the sink reached the limit (`lim_rounds_ok`), excess of the sink bounds every cut (`excess_cut`), otherwise the argument of C30 (`lim_solve_ok`) |
| C74 | `decrementalRebuild` (recursive_cactus.h:88-97), the calls of removeEdge (dynamic_mincut.h:277-303) with the models of C45, C72 and C73; every edge carries the id of the flow problem (C51) | the components of the residual graph in the order of strong_components form a chain of minimum cuts (`components_ok`, `chain_ok`), every minimum cut is a union of them (`mincut_whole2`), then C72; minimum cut 0 apart (`two_cactus`); fuel does not depend on the limit, so one fuel serves a whole history (`code_answers`) |
| C75 | `recursive_cactus.h` recursiveCactus, internalRecursiveCactus, mergeCactusWithComponent, findFlowEdge, maximumWeightedFlowEdge (99-321, 509-611), `heavy_edges.h`, `graph_modification.h` mergeGraphs and canonizeCactus; parameters: reductions, selection of the edge, flow, hash order | refuted by a run of the model with the real findFlowEdge and push-relabel (`rc8`) |
| C76 | `graph_modification.h` mergeGraphs, canonizeCactus (29-171); contractEdge of the mutable graph | both graphs' cuts restricted to the two sides of the glued vertex; degrees are multiples of mincut by disjoint unions of minimum cuts (`degree_mult`); an empty vertex of degree 2 mincut with an edge of weight mincut is contracted without changing the family; three junctions would need an isolated minimum cut that does not exist (`glued_three`) |
| C77 | `recursive_cactus.h` internalRecursiveCactus, mergeCactusWithComponent, findFlowEdge, maximumWeightedFlowEdge (134-321, 544-611) | blocks of the residual graph (C74), cactus of the s-t cuts (C72), a minimum cut follows the blocks or splits exactly one of them (`split_one`, crossing cuts), graph of a component = contraction of the other blocks (`small_ok`, `big_ok`), merge of one component (C76, `merge_one`), flow of the code is maximum (`pr_flow_ok`) |
| C78 | `recursive_cactus.h` internalRecursiveCactus with the leaf branch (134-225) | a cactus with a new leaf (`add_leaf`), two blocks: only one minimum cut separates the ends (`blocks_cases`), graphs with vertices taken out (`good_live`, `rep_live`) |
| C79 | `heavy_edges.h` removeHeavyEdges and reInsertVertices together (29-94, 196-210) | the scan (`scan_ok`), contraction of heavy edges keeps the minimum cuts (`contract_all`), one leaf deleted and put back (`leaf_step`, `re_leaf_ok`), all leaves in reverse order (`leaves_ok`) |
| C80 | `maximal_clique.h` findCliques, neighborhoodIntersection, bronKerbosch (28-218) | `ni_ok` (P and X are intersected with the neighbours), `bst` (P and X together are the common neighbours of R), `bst_step`, `bst_next`, `loop_ok`, `bk_ok`, `vertex_ok` |
| C81 | `maximal_clique.h` contractSemiIsolatedCliques (220-291) | `clique_step` (moving a whole clique to one block does not cost more), `keep_together` (all cliques at once, also overlapping ones), `nodes_ok` (no exit, exact weights), `contract_cliques_ok` |
| C82 | parallel `contract_graph.h` contractGraphSparse (293-450), contractGraphFullMesh (118-182), contractGraph (279-291) as thread machines | `inv1` (table, counters and key lists fit together at every step), `settle_ok`, `inv2` (places given out are different, each is filled or held by one thread), `finished`, `items_total`, `more1`, `more2` (progress), `slot_inj`, `full_mesh_ok`, `mut_build_ok` |
| C83 | parallel `label_propagation.h` propagate_labels (42-104) as a thread machine with `remap_cluster` and the contraction of C82 | `linv` (labels, and the block at hand of every thread, are in the component), `pl_more` (progress), `lift_uncut` |
| C84 | parallel `contract_graph.h` findTrivialCuts (64-118), 32-bit unsigned arithmetic | `pt_block_zero`: improve stays 0 |
| C85 | `sparsify.h` random_matching (51-168; the text of the parallel version, 283-408, is the same) | `mi` (the log of pairs agrees with edge_matching and coarse_mapping, first vertices of the pairs increase), `rowi` (row under construction), `rm_build_ok` |
| C86 | `sparsify.h` remove_heavy_vertices (170-217; parallel 410-460 is the same), `mincut_heavy.cpp` (84, 111-167), `quality_metrics.h` edge_cut | `rank_kept`, `kept_rank` (numbering), `edge_cut_ok` |
| C87 | `bucket_pq.h` all methods (gain(v) is not part of the common interface) | `sim` with node_bucket_pq of C06 |
| C88 | `flow_graph.h` (all), `graph_io.h` createFlowGraph (315-334) | `fgi` (pairing, capacity sums, counts) |
| C89 | `sparsify.h` one_ks (24-49), `ks_minimum_cut.h` sample_contractible_weighted (110-157) | intervals of the prefix sums (`hits`), `inv` of union_find with the drawn edges, a merging draw exists |
| C90 | `make_graph_weighted.cpp` (69-118) | rows are processed in order; `mw_rows_ok` (what was noted by the vertices before n) |
| C91 | `gnp_torus.cpp` (57-151) | `torus_wt`, sums over the entered pairs (`both_cut`), right and down neighbours are permutations without fixed points |
| C92 | `temporal_largest_cc.cpp` (39-84), `mutable_graph.h` new_edge_order (146-154) | C45 on the rows of all edges; `tc_scc` (reachability = connection by the pairs), ranks in the component |
| C44 | `random_functions.h` shuffles, draws are an arbitrary stream | transpositions are permutations |
| C48 C56 | `graph_algorithms.h` bfsDistances; `recursive_cactus.h` centralFlowEdge | queue sorted by distance, walk lower bound |
| C54 C55 | `graph_algorithms.h` checkGraphValidity (both), top_k_degrees | counting of edges without partner |
| C46 C57 | `core_decomposition.h` batagelj_zaversnik, createCoreGraph | bucket invariant, level invariant of the peeling |
| C45 C58 C59 | `strongly_connected_components.h`; `graph_extractor.h` extract_block for the static graph | invariant of the path-based search: segments between roots are strongly connected, finished vertices are closed |

Not modelled at all: command line programs (but the loop of mincut_heavy, C86; make_graph_weighted, C90; gnp_torus, C91), MPI communication, timers, logging, memory management,
Cython/other bindings, the parallel variant of sparsification, certify_clusters, `find_bridges.h`,
`stoer_wagner_minimum_cut.h`, `adjlist_graph.h`, `excess_scaling.h`, `unit_flow.h`, 
`single_problem_queue.h`, `ilp_model.h`, contractGraphSparseNoHash.

## Findings (false of the code, with machine-checked witness)

1. Parallel union-find: two racing unions can build a parent cycle, and a union can be lost (C49).
2. `getMinDegree`/`getMaxDegree` are cached and go stale after `setEdgeWeight` (C09).
3. Priority queue keys are 32 bits wide; with degrees of 2^32 and more `modified_capforest` joins
   vertices of too small connectivity and NOI returns a wrong value (C12, C13), and Matula's
   algorithm misses its factor (C16).
4. `prTests12` keeps degrees in 32-bit `NodeWeight` variables and can destroy the minimum cut when a
   degree reaches 2^32 (C17).
5. `prTests34` counts the common neighbour twice if there are parallel edges and can destroy the
   minimum cut (C18, last theorem).
6. `viecut` with `save_cut`: after coarsening, the cut NOI finds on the coarse graph is returned as
   value but not as vertex set (C19, last theorem; threshold scaled down from 10000).
7. `contractEdge` of the last vertex accesses `vertices` behind its end, and with a parallel edge
   between the two ends leaves a self loop with wrong degree (C23).
8. `from_graph_access` adds the weight of a parallel edge from both ends (C25).
9. `serialize`/`deserialize` mix vertex ids and markers: a vertex id not below the number of half
   edges is read as a marker, so sparse graphs lose edges (C26). `node_in_cut` is not transmitted.
10. `deleteVertex` does not shrink `contained_in_this`; a following `new_empty_node` (as in
    `canonizeCactus`) yields a vertex that claims to contain original vertices lying elsewhere, and
    `new_node` fills the group of the new vertex with zeros (C50).
11. `highDegreeContraction` compares with a single edge to the second best terminal; with parallel edges
    to it the contraction is wrong (C32).
12. `lowDegreeContraction` does not look whether the neighbour of a leaf is a terminal when it goes on to
    contract that neighbour as a vertex of degree two: a terminal is merged with a non-terminal or with
    another terminal (C33).
13. `triangleDetection` is unsafe for three terminals, and for two terminals when triangles overlap (C34).
14. `degreeThreeContraction` loses the optimum: deleting the two other edges of the vertex cuts neighbours
    that an optimal solution keeps in the same block; both branches of `singleBranch` are then worse than the
    optimum (C36).
15. The sequential flow solver draws the id of its problem at random; if it draws an id again, it starts from
    the flow an earlier problem left in the graph (C51, second theorem).
16. `nonTerminalFlow` runs several flows on the same graph and unites every vertex of each source set with the
    start vertex. If two source sets overlap, they are merged as a whole, which can separate the graph
    differently from every optimal solution: on a path with weights 10, 1, 1, 10 the optimum rises from 1 to 10
    (C53, last theorem). By default ten flows are run.
17. `createCoreGraph` compares the weighted minimum degree of the core graph with the (unweighted) core number
    and calls `exit(1)` if they differ: it fails for every weighted graph such as a triangle with weights 2 (C57).
18. `strong_components` does not reset `m_blocksizes`: a second call on the same object returns the sizes added
    to those of the first (C58). All callers use a new object.
19. `addProblem` reads `haveSendProblem` before it locks `send_problem_mutex`. Two threads that add at the same time
    both find it false, and the second overwrites the problem of the first, which is lost (C39_lost_refuted).
20. `addProblem` unlocks `send_problem_mutex` twice when it exchanges the send problem, which is undefined behaviour
    even with one thread (C39_unlock_refuted). If the second unlock frees the mutex held by another thread, two threads take
    the same slot and the program ends with `exit(1)` (C39_exit_refuted).
21. `allCutsPrTests12` keeps one degree per block and subtracts only the joining edge, not the other edges between the two
    blocks.  The estimate of a block that is one side of a minimum cut then exceeds the limit and the block is contracted
    with a neighbour, so a minimum cut is lost (`C42_prtests12_refuted`: two triangles joined by one edge).
22. `splitConnectedComponents` stores the component number in nodeProblemMapping (multiterminal_cut.h:268), but `multicut` uses
    it as an index into `solutions` and `globalTerminalIndex`, which have one entry per component with two terminals.  If a component
    with fewer than two terminals is numbered before one with two, the vectors are read out of range (`C40_solution_partial`, second
    part, for all such graphs; `C40_refuted`: an isolated vertex and an edge).  The value returned is not affected.
23. `readGraphWeighted` skips a self loop with `continue` before it reads the weight of the loop; in a weighted file the weight is then
    read as a neighbour and the neighbours that follow as weights (`C28_loops_refuted`).
24. `readGraphWeighted` skips one character after a number and stops the line at the next one that is no digit, so two spaces
    between neighbours silently drop the rest of the line (`C28_two_spaces`); vertex weights (format 11) are read as neighbours,
    and targets are not checked against the number of nodes (`C28_vertex_weights`).
25. `cactus_path::findPath` leaves out vertices where two cycles of the cactus meet, since it keeps a vertex only if one of the two
    tree edges around it weighs the full cut.  After insertions across a chain of cycles dynamic_mincut reports too small a cut
    (`C43_insert_refuted`: four triangles, five insertions, 2 instead of 3).
26. `buildCactusFromCache` calls findPath with the value before the insertion instead of the value of the cached cactus, so no edge
    counts as a tree edge and the cactus is contracted too little (`C43_cache_refuted`: one removal, three insertions, 1 instead
    of 2).
27. `putIntoCache` counts a value that is cached already once more; buildCactusFromCache then appends a list of insertions to
    itself while iterating over it (`C43_undefined_refuted`).
28. The cactus of dynamic_mincut loses minimum cuts: findPath contracts a vertex in the middle of a cycle (`C60_chord_refuted`),
    removeEdge ignores cuts that come down to the current value (`C60_removal_refuted`), and an edge of weight 0 is contracted
    (`C60_zero_refuted`).  The value stays right in these three cases.
29. `parallel_modified_capforest` reads `visited[tgt]` twice (lines 221 and 226).  If another thread marks tgt in between, r_v[tgt]
    is raised but tgt is not queued, the scan is no maximum adjacency order any more, and the thread joins vertices of low connectivity.
    All cuts below the bound can be destroyed, so that the exact parallel algorithm returns a value that is too large
    (`C41_refuted`, `C61_refuted`: four vertices, two threads, 5 instead of 2).
30. `equal_neighborhood` compares the list of one vertex with that of another one with the same seed, but looks only at the length of the
    first; two seeds may collide, also for lists of different length (`C62_hash_refuted`: optimum lost, or a read behind the end).
31. `findAllArticulationPoints` never reports the vertex it starts from (`C64_first_vertex_refuted`); harmless for the rule.
32. `gainLocalSearch` counts only one of several parallel edges between the two vertices of a double move, so the improvement it reports
    can be too small (`C65_exact_refuted`); bounds derived from it stay valid. The skip test of `flowLocalSearch` (line 194) compares with the
    flow of an earlier round and may skip a pair that could be improved; no claim of local optimality is made.
33. `balanced_cut_dfs` recognises the edge to the parent by its target only, so a cactus with parallel edges loses cuts: no cut is recorded and
    the first edge of vertex 0 is taken, whatever it is (`c66_parallel`). The cut of a one-vertex cactus would read a missing edge.
34. `cactus_mincut.h:167-168` replaces the minimum cut by the minimum cut of the reduced graph. If all minimum cuts were leaf edges contracted
    earlier and the loop stopped because a round removed less than one percent of the vertices, the returned value is too large, and the leaves
    are put back with that weight (`C67_value_refuted`: cycle of 104 vertices with one leaf, 2 instead of 1).
35. In the same place, if only this last call finds the minimum cut (start value too large), the recorded leaf edges are not cleared, as they are
    inside the loop, so leaves of larger degree are returned as minimum cuts (`C67_start_refuted`).
36. `setVertexLocations` clears the groups of existing cactus vertices only. A group left behind by deleteVertex (finding on C50; canonizeCactus
    deletes vertices) is inherited by the next leaf (`C67_groups_refuted`).
37. The parallel `prTests34` stores degrees in `NodeID deg_n, deg_tgt` (32 bits), the sequential version does not: from degree 2^32 on triangles
    pass the test that should not, and all minimum cuts can be lost (`C68_wide_degrees_refuted`).
38. A child with fewer than two live terminals is reported by `processNewProblem` (problem_management.h:219-222) with the partition indices of the
    flow before the branch. The merged vertex may keep the index of the non-terminal end, a block is then empty and `flowValue` calls `exit(1)`:
    four vertices, edges 1-0, 2-0, 3-0 of weight 2 and 2-3 of weight 1, terminals 1, 2, 3 (`C69_old_partition_refuted`).
39. The same old indices may describe a worse solution than the one the child stands for; the child is dropped, so the optimum can be lost
    (`C70_old_partition_refuted`: identity kernel and local search without improvement, six vertices, 7 instead of 6).
40. With `configuration::runLocalSearch = false` solutions of problems with two terminals or without edges are never recorded
    (`C70_no_local_search_refuted`), although the option should only switch off an improvement.
41. `multiBranch` silently drops a problem if no terminal has an edge of nonzero weight to a non-terminal while edges are left; the contract of
    kernelization in C70 therefore contains that such an edge exists.
42. In `findBestSolution` the comparison with `global_upper_bound` and its update are outside of `bestsol_mutex`: a call with a worse solution that
    passed the comparison earlier may copy its solution over a better one, `global_upper_bound` keeps the better value, and the better solution
    is lost (`C71_lost_update_refuted`; 4 is returned, 3 was found). One worker is enough, the main thread calls it concurrently (branch_multicut.h:120).
43. `findSTCactus` is right only through the order of equal keys: `changeKey` deletes and inserts even if the key is unchanged, the rows of the contracted
    graph are sorted by target, so at the first tie the last block is on top of its bucket, and the cycle is walked backwards from there. With the
    blocks numbered in another way, or with the other end of the bucket, cuts are lost (`C72_order_needed`). Nothing in the code states this.
44. `global_relabeling` with `limited = true` writes `m_count[depthOfPartialRelabeling + 1]`; `m_count` has 2n entries, so `--depth` of at least 2n - 1
    (3 on a graph with two vertices) writes behind the end (`c73_too_deep`); there is no check. The limit is tested only after a discharge: if the
    edges of the source alone reach it, a value above the limit is returned (`c73_above`); the caller compares with `<` and is not affected.
45. The first branch of `removeEdge` (dynamic_mincut.h:277-290) rebuilds without comparing the flow with the current cut. That is right only because the
    removed edge has positive weight and crossed a minimum cut, so that the flow is below the limit (`rem_step` in P_Dynamic4.v); edges of weight 0 never
    get there because of the test in line 266.
46. With `edge_selection = random` recursiveCactus can return a wrong cactus (`C75_recursive_cactus_refuted`; eight vertices, all degrees 3, minimum cut 3). The branch
    for two blocks, one of them a single vertex (recursive_cactus.h:171-198), takes the vertices of the leaf out of containedVertices but leaves their positions as they
    are; fresh component graphs (240-289) give every vertex they do not hold a position as well. findSTCactus (352-379) collects the members of a vertex by position and
    mergeGraphs overwrites positions from such lists, so vertices that were taken out reappear: an empty leaf, two vertices in one place, two minimum cuts lost. The
    Python port of the model found no such run for the default selection.
47. The search in canonizeCactus (graph_modification.h:119-145) never sets `seen` except for the vertex itself, so it walks instead of searching; the branch for three
    junctions that uses it is not reached if the cactuses are right.
48. The branch of canonizeCactus for three junctions (graph_modification.h:103-165) is dead code in a correct merge: `C76_merge` holds for every fuel of its search, including
    none. It is reached only when the two cactuses disagree about the cut around the merge vertex.
49. `maximal_clique::bronKerbosch` gives up the whole search at a vertex when one branch is cut off (`return false` is passed on), so `findCliques` misses maximal cliques that `contractSemiIsolatedCliques` would contract (`C80_complete_refuted`). Also, when the current neighbour is greater than the place of X and equal to the place of P, `neighborhoodIntersection` reads the weight of the neighbour before it (`n_id - 1` without having moved on) and later counts the same neighbour as external; this only changes where the search is cut off. What is returned is still right (C80), and what is contracted is checked again with exact weights (C81).
50. Parallel `contractGraphSparse` reads `el[1]` of a vector with one place when there is only one block and the graph has more than 100 vertices (`C82_one_block_refuted`). For static graphs contractGraph takes the full mesh then, but for mutable graphs it does not: VieCut on a mutable graph that label propagation puts into one cluster gets there. When the two biggest blocks have the same size, `block0` and `block1` are the same block, and no edge is treated as contested; this only costs time.
51. The parallel `findTrivialCuts` never does anything (`C84_parallel_trivial_cuts_idle`): `improve` and `node_degree` are unsigned and improve starts with 0, so `improve > node_degree` never holds; with signed numbers the later test `improve > 0` could not hold either. The sequential version, which tests `improve < 0` on signed numbers, does split (`C84_splits_refuted`). If the branch were taken, `rev_mapping.push_back` and `target_mindeg` would race. The member function `remap_cluster` of the parallel `label_propagation.h` (called by nobody) returns `part`, which is indexed by label, as the mapping of the vertices.
52. `random_matching` (called by nobody) can return a graph that is not undirected (`C85_late_partner_refuted`): a vertex that gave up after 50 draws still has `edge_matching[v] == v`, so a later vertex can pick it; it then changes its coarse number, its old number stays without vertices, and the pair is built twice. For a vertex without edges it computes a remainder by zero (`C85_isolated_refuted`).
53. `remove_heavy_vertices` calls `new_edge` without a weight, so the smaller graph has unit weights (`C86_weights_refuted`); `mincut_heavy` reads weighted graphs. If all degrees are equal, every percentile is that degree and no vertex is left: the program prints cut=0 if the algorithm survives the empty graph (`C86_regular_prints_zero`). Without `-s` no algorithm marks vertices, and `mincut_heavy` prints cut=0 as soon as every heavy vertex has a light neighbour (`C86_unmarked_prints_zero`). `-c 1.0` makes `getPercentile` read one place behind the vector (graph_access.h:532-536; read, not modelled). `mincut_contract -s` writes the marks of G although the algorithm ran on, and marked, G2; its option `-c` fills a local variable that nothing but the output uses (mincut_contract.cpp:46, 66, 119-127; read, not modelled).
54. `bucket_pq::getKey` of a node that is not queued enters the node into the index (`operator[]` of the map), so that `contains` says true from then on (`C87_getkey_changes_refuted`); node_bucket_pq does not do this.
55. `flow_graph::new_edge(v, v, c)` makes an edge that is its own reverse edge (`C88_loop_refuted`). `unit_flow::init` takes the flow_graph by value and keeps a pointer to this parameter (unit_flow.h:32-35), which dangles when init returns; so `unit_flow` and `excess_scaling` (called by nobody) cannot be used as they are (read, not modelled). `stoer_wagner_minimum_cut::contract` takes graph and union_find by value (stoer_wagner_minimum_cut.h:44), so that no contraction survives the call (called by nobody; read, not modelled).
56. `sample_contractible_weighted` looks for the first prefix sum not below a number in [0, total) (ks_minimum_cut.h:138-146); it should be the first one above it. The first entry of the edge list gets one number too many and the last one too few: in the path 1 - 0 - 2 with unit weights three of four numbers lead to one edge and one to the other (`C89_bias_refuted`).
57. `one_ks` does not return on graphs with three or more components when the factor asks for fewer vertices than there are components (`C89_components_refuted`; mincut_contract only excludes isolated vertices).
58. `mincut_contract` reads -c into a local variable that nobody uses except for printing (uninitialised if -c is not given); one_ks takes the factor of the configuration, which no program sets, so it is 0.0 and nothing is contracted (`C89_option_refuted`). With -s it writes the cut of G although the algorithm marked G2 (mincut_contract.cpp:122-128; read, not modelled).
59. Parallel `sparsify::sample_contractible_weighted` calls `omp_get_num_threads()` outside of the parallel region, where it is 1, so with two or more threads `prefixsum[id]` is out of range; all threads use the same seed and write the shared `n_reduce`. In `sample_contractible_separate` the modulus `my_range` is 0 if there are fewer edges than threads (lib/parallel/coarsening/sparsify.h:54-163; read, not modelled).
60. `make_graph_weighted`: with parallel edges the two directions get different weights (`C90_parallel_refuted`); at an isolated vertex it asks nextInt for a number from an empty range (`C90_isolated_refuted`); a loop gets weight 0 (edge_weights is read before it is written; app/make_graph_weighted.cpp:99-112).
61. `gnp_torus` lets a vertex draw itself (gnp_torus.cpp:123-126): the graphs written have loops, which the reader of weighted graphs does not accept correctly (C28), and the minimum cut can be smaller than 4 * cut (`C91_mincut_refuted`).
62. `temporal_largest_cc` counts a deletion (negative weight) as an edge; the component it keeps can fall apart when its lines are applied (`C92_deleted_refuted`).
## Wrong programs (`seeded/LOG.jsonl`)

Each line is one edit of a model definition in a scratch copy. `theorems_failed` are the property
theorems whose proof, or the proof of a lemma they use, no longer goes through; `failed_at` names
the first broken proofs. A failing proof script is not a proof that the statement became false; the
field `claim` says which English claim the edit makes false, and the point of the check is that no
theorem standing for that claim still goes through.
