{
 "claims": [
  {
   "property": "C01",
   "status": "proved",
   "theorems": [
    "C01_uf_is_closure",
    "C01_find_does_not_disturb"
   ],
   "note": "full header modelled; fuel shown sufficient"
  },
  {
   "property": "C02",
   "status": "proved",
   "theorems": [
    "C02_uf_counts_classes",
    "C02_class_count_unique"
   ],
   "note": ""
  },
  {
   "property": "C03",
   "status": "proved",
   "theorems": [
    "C03_par_uf_sound",
    "C03_issued_are_requested"
   ],
   "note": "small-step machine, all schedules, sequential consistency"
  },
  {
   "property": "C04",
   "status": "proved",
   "theorems": [
    "C04_call_terminates_alone"
   ],
   "note": "obstruction freedom with explicit bound; holds in spite of cycles (C49)"
  },
  {
   "property": "C05",
   "status": "proved",
   "theorems": [
    "C05_heap_is_priority_queue"
   ],
   "note": "Every history of calls on vecMaxNodeHeap answers as the finite-map specification SpecPQ.v while each call meets its precondition (pre_heap). maxNodeHeap.h is the same algorithm with a hash map for the index and is not modelled separately."
  },
  {
   "property": "C06",
   "status": "proved",
   "theorems": [
    "C06_bucket_is_priority_queue"
   ],
   "note": "both bucket queues; keys within the span, inserted nodes not queued"
  },
  {
   "property": "C07",
   "status": "proved",
   "theorems": [
    "C07_deletion_order"
   ],
   "note": "histories of insert and deleteMax, as the property says"
  },
  {
   "property": "C08",
   "status": "proved",
   "theorems": [
    "C08_construction_exact"
   ],
   "note": "all n, all legal scripts (ascending sources, endpoints in range); also getEdgeSource"
  },
  {
   "property": "C09",
   "status": "partial",
   "theorems": [
    "C09_degrees_exact_partial",
    "C09_degrees_exact_refuted"
   ],
   "note": "true when no setEdgeWeight follows getMinDegree/getMaxDegree; the full statement is refuted (cached degrees go stale)"
  },
  {
   "property": "C10",
   "status": "proved",
   "theorems": [
    "C10_contraction_preserves_cuts",
    "C10_contract_mapping"
   ],
   "note": "any hash-set iteration order; ideal weights"
  },
  {
   "property": "C11",
   "status": "proved",
   "theorems": [
    "C11_contraction_mincut"
   ],
   "note": ""
  },
  {
   "property": "C12",
   "status": "partial",
   "theorems": [
    "C12_capforest_connectivity_partial",
    "C12_capforest_connectivity_refuted"
   ],
   "note": "Proved for every bound whose queue keys fit 32 bits, every start vertex, queue class and tie breaking. Without that restriction the claim is false: the priority queue interface takes 32-bit keys, witness with weights that are multiples of 2^30."
  },
  {
   "property": "C13",
   "status": "partial",
   "theorems": [
    "C13_noi_exact_partial",
    "C13_noi_exact_refuted"
   ],
   "note": "Proved for every graph whose minimum degree (with disable_limiting: total weight) is below 2^32. Beyond it the result can be wrong (key truncation), shown by a four-vertex witness."
  },
  {
   "property": "C14",
   "status": "proved",
   "theorems": [
    "C14_capforest_progress",
    "C14_noi_terminates"
   ],
   "note": ""
  },
  {
   "property": "C15",
   "status": "proved",
   "theorems": [
    "C15_saved_cut_matches"
   ],
   "note": "For weights of any size (minimum degree below the 64-bit maximum)."
  },
  {
   "property": "C16",
   "status": "partial",
   "theorems": [
    "C16_matula_approximation_partial",
    "C16_matula_approximation_refuted",
    "C16_matula_real_cut"
   ],
   "note": "The factor holds for every graph with minimum degree below 2^33 (with disable_limiting: total weight below 2^32). Beyond it the 32-bit queue keys make it false (six-vertex witness: 2^32+1 for a minimum cut of 2). Termination and a real cut hold for weights of any size."
  },
  {
   "property": "C17",
   "status": "partial",
   "theorems": [
    "C17_pr_tests12_partial",
    "C17_pr_tests12_refuted",
    "C17_pr_tests12_total"
   ],
   "note": "Proved for degrees below 2^32, both values of find_all_cuts. Beyond it false: NodeWeight is 32 bits wide (four-vertex witness)."
  },
  {
   "property": "C18",
   "status": "proved",
   "theorems": [
    "C18_pr_tests34_keeps_mincut",
    "C18_pr_tests34_keeps_all_mincuts",
    "C18_parallel_edges_refuted"
   ],
   "note": "Simple graphs, as stated. With parallel edges it is false (last theorem)."
  },
  {
   "property": "C19",
   "status": "proved",
   "theorems": [
    "C19_viecut_real_cut",
    "C19_viecut_small_exact",
    "C19_padberg_rinaldi_real_cut",
    "C19_karger_stein_real_cut",
    "C19_viecut_saved_cut_scaled_refuted"
   ],
   "note": "Karger-Stein: whenever it returns. The saved cut of viecut is wrong after coarsening (last theorem, threshold scaled down)."
  },
  {
   "property": "C20",
   "status": "proved",
   "theorems": [
    "C20_level_vertex_cut",
    "C20_update_cut"
   ],
   "note": ""
  },
  {
   "property": "C21",
   "status": "proved",
   "theorems": [
    "C21_edit_history_exact"
   ],
   "note": "every history of in-range operations; ideal weights"
  },
  {
   "property": "C22",
   "status": "proved",
   "theorems": [
    "C22_delete_vertex"
   ],
   "note": ""
  },
  {
   "property": "C23",
   "status": "partial",
   "theorems": [
    "C23_contract_edge_partial",
    "C23_last_vertex_refuted",
    "C23_parallel_edges_refuted"
   ],
   "note": "Proved when the neighbours of the larger end are distinct and the larger end is not the last vertex. Without these it is false: a parallel edge leaves a self loop, and contracting the last vertex reads behind the arrays."
  },
  {
   "property": "C24",
   "status": "proved",
   "theorems": [
    "C24_contract_vertex_set"
   ],
   "note": "every iteration order of the hash set"
  },
  {
   "property": "C25",
   "status": "partial",
   "theorems": [
    "C25_from_graph_access_partial",
    "C25_to_graph_access",
    "C25_multigraph_refuted"
   ],
   "note": "True for graphs without parallel edges, and for to_graph_access always. With parallel edges from_graph_access counts weights twice (witness 3 becomes 5)."
  },
  {
   "property": "C26",
   "status": "partial",
   "theorems": [
    "C26_roundtrip_partial",
    "C26_roundtrip_refuted"
   ],
   "note": "True when every vertex id is below the number of half edges and the position table has its original size. False otherwise: sparse graphs lose edges."
  },
  {
   "property": "C27",
   "status": "proved",
   "theorems": [
    "C27_round_trip",
    "C27_built"
   ],
   "note": "byte-level reader and writer; weighted and unweighted writer; every static graph without self loops within the type bounds, in particular every graph built through the interface"
  },
  {
   "property": "C28",
   "status": "partial",
   "theorems": [
    "C28_reader_partial",
    "C28_loops_refuted"
   ],
   "note": "all unweighted METIS files, and weighted ones without self loops; false for weighted self loops (C28_loops_refuted). METIS files are as in SpecMetis: one blank between numbers, leading and trailing blanks, comments; no vertex weights."
  },
  {
   "property": "C29",
   "status": "proved",
   "theorems": [
    "C29_preflow",
    "C29_runs_reach"
   ],
   "note": "Every state reached by the solver (every order of vertex selection and every schedule of global relabelings)."
  },
  {
   "property": "C30",
   "status": "proved",
   "theorems": [
    "C30_max_flow_min_cut",
    "C30_result"
   ],
   "note": "Total correctness: the run ends, the value is the minimum isolating cut and the source set attains it. Flows are ideal integers; limited=false; flow in private vectors (C51 connects it with flow kept in the graph)."
  },
  {
   "property": "C31",
   "status": "proved",
   "theorems": [
    "C31_flow_value"
   ],
   "note": "exact characterisation: flowValue succeeds exactly on the assignments with one terminal per block and returns the weight between the blocks"
  },
  {
   "property": "C32",
   "status": "partial",
   "theorems": [
    "C32_high_degree_partial",
    "C32_parallel_edges_refuted"
   ],
   "note": "Proved for graphs without parallel edges (whole round: rule, contraction, terminals, terminal edges). With parallel edges the rule is false."
  },
  {
   "property": "C33",
   "status": "partial",
   "theorems": [
    "C33_low_degree_partial",
    "C33_low_degree_refuted"
   ],
   "note": "Proved when no leaf hangs at a terminal of degree three; false otherwise (optimum 3 becomes 12)."
  },
  {
   "property": "C34",
   "status": "partial",
   "theorems": [
    "C34_triangle_partial",
    "C34_pairs_from_heavy_triangles",
    "C34_triangle_refuted",
    "C34_two_triangles_refuted"
   ],
   "note": "Proved for two terminals and one merged pair. False for three terminals even with one pair (3 becomes 4), and for two terminals with two overlapping pairs (2 becomes 4)."
  },
  {
   "property": "C35",
   "status": "partial",
   "theorems": [
    "C35_multi_branch_partial",
    "C35_heavy_vertex_partial",
    "C35_single_branch_partial",
    "C35_contract_edge_agrees"
   ],
   "note": "Exhaustiveness of multiBranch (every branching vertex, every order of std::sort, and the choice of findHeavyVertex) and of singleBranch, for every valid state without parallel edges. Missing: graphs with parallel edges (contractEdge is wrong there, C23); bounds on flow values that prune children; inexact mode."
  },
  {
   "property": "C36",
   "status": "partial",
   "theorems": [
    "C36_degree_three_refuted",
    "C36_degree_three_partial"
   ],
   "note": "The claim is false: C36_degree_three_refuted shows an instance (edge chosen by findHeavyVertex) where both branches miss the optimum. C36_degree_three_partial: the shortcut branch has exactly the solutions that keep the edge and cut the other two, and never reports less than a solution."
  },
  {
   "property": "C37",
   "status": "proved",
   "theorems": [
    "C37_isolating_flow"
   ],
   "note": "Total correctness for every run of the flows, threaded (with the index shift between futures and blocks) or not. Flags: hypothesis flags_ok, trivially true after multiBranch."
  },
  {
   "property": "C38",
   "status": "proved",
   "theorems": [
    "C38_delete_term_edges"
   ],
   "note": ""
  },
  {
   "property": "C39",
   "status": "partial",
   "theorems": [
    "C39_no_duplicate_partial",
    "C39_conservation_partial",
    "C39_ordered_partial",
    "C39_lost_refuted",
    "C39_unlock_refuted",
    "C39_exit_refuted"
   ],
   "note": "false as stated: a problem is lost when two threads add at the same time, and an exchange of the send problem unlocks a mutex twice; proved for every interleaving with one adder at a time and without such an exchange"
  },
  {
   "property": "C40",
   "status": "partial",
   "theorems": [
    "C40_value_partial",
    "C40_solution_partial",
    "C40_connected_partial",
    "C40_refuted"
   ],
   "note": "the value is optimal for every graph when the solver is optimal on every component problem; the written solution respects the terminals and has that cost when no component without two terminals is numbered before one with two (always in connected graphs); otherwise solutions is read out of range (C40_refuted). The branching solver is a parameter with its contract as hypothesis."
  },
  {
   "property": "C41",
   "status": "partial",
   "theorems": [
    "C41_capforest_connectivity_partial",
    "C41_any_memory_partial",
    "C41_disable_blacklist",
    "C41_one_thread",
    "C41_safe_terminates",
    "C41_refuted",
    "C41_scans_all"
   ],
   "note": "False in general: the two reads of visited[tgt] may disagree (C41_refuted). Proved for every interleaving in which they agree, even on a memory that returns arbitrary values; without further condition for disable_blacklist and for one thread; no access out of range and termination for every interleaving. Bounds below 2^31 - 1. When all threads have finished, everything reachable from a start vertex has been scanned (C41_scans_all)."
  },
  {
   "property": "C42",
   "status": "partial",
   "theorems": [
    "C42_prtests12_partial",
    "C42_prtests12_equal_weights_partial",
    "C42_prtests34_partial",
    "C42_capforest_partial",
    "C42_prtests12_refuted",
    "C42_prtests34_refuted"
   ],
   "note": "allCutsPrTests12 keeps all minimum cuts when every edge weighs at least half the minimum cut or every edge weighs at most half of it or more than it (hence for equal weights); false otherwise (C42_prtests12_refuted: degree estimates). allCutsPrTests34 for graphs without parallel edges (false with them), capforest for 32-bit keys."
  },
  {
   "property": "C43",
   "status": "partial",
   "theorems": [
    "C43_value_partial",
    "C43_removals",
    "C43_insert_refuted",
    "C43_cache_refuted",
    "C43_undefined_refuted"
   ],
   "note": "False in general: findPath skips vertices where cycles meet, the cached cactus is searched with the wrong value, and a list is appended to itself (three witnesses). Proved for every sequence of removals and for every sequence that inserts only while the minimum cut is 0 or odd (no cycles in the cactus) and before the first removal that changes the cut. Missing: insertions with even cuts, where the claim fails for cactuses with cycles, and after cached removals. The static algorithms are parameters with a contract on the graphs of the history; C74 puts the models of the flow and of decrementalRebuild in place of two of them."
  },
  {
   "property": "C44",
   "status": "proved",
   "theorems": [
    "C44_good",
    "C44_good1",
    "C44_good_small",
    "C44_fast",
    "C44_local",
    "C44_circular",
    "C44_init"
   ],
   "note": "every stream of draws; std::shuffle is any permutation of the block; circular_permutation: partial correctness (its inner loop keeps drawing until the positions differ)"
  },
  {
   "property": "C45",
   "status": "proved",
   "theorems": [
    "C45_components",
    "C45_mutable",
    "C45_static"
   ],
   "note": "flows are integers; the reset of flows of other problems by getEdgeFlow is not kept in the graph"
  },
  {
   "property": "C46",
   "status": "proved",
   "theorems": [
    "C46_core_numbers"
   ],
   "note": "32 bit entries unbounded; self loops and parallel edges allowed"
  },
  {
   "property": "C47",
   "status": "proved",
   "theorems": [
    "C47_labels_give_clustering",
    "C47_find_trivial_cuts_clustering",
    "C47_reverse_mapping_exact"
   ],
   "note": ""
  },
  {
   "property": "C48",
   "status": "proved",
   "theorems": [
    "C48_bfs_distances",
    "C48_mutable"
   ],
   "note": "includes the early return; unreachable vertices keep distance 0 and no parent"
  },
  {
   "property": "C49",
   "status": "partial",
   "theorems": [
    "C49_acyclic_refuted",
    "C49_union_lost_refuted"
   ],
   "note": "FALSE of the code: two-thread schedules build a parent cycle and lose a union; what remains true is C03 and C04"
  },
  {
   "property": "C50",
   "status": "partial",
   "theorems": [
    "C50_new_empty_node_partial",
    "C50_after_delete_refuted",
    "C50_new_node_refuted"
   ],
   "note": "new_empty_node is right on a graph whose group table has the size of the graph; after deleteVertex the new vertex inherits a stale group, and new_node fills the group with zeros."
  },
  {
   "property": "C51",
   "status": "proved",
   "theorems": [
    "C51_stored_flow",
    "C51_reused_id_refuted"
   ],
   "note": "The second theorem shows that the freshness of the id is needed; ids are drawn at random."
  },
  {
   "property": "C52",
   "status": "proved",
   "theorems": [
    "C52_st_flow"
   ],
   "note": "Ideal integer flows."
  },
  {
   "property": "C53",
   "status": "partial",
   "theorems": [
    "C53_nonterminal_flow_partial",
    "C53_nonterminal_flow_refuted"
   ],
   "note": "FALSE of the code for two or more flows: overlapping source sets are united. True when the sets are pairwise disjoint, in particular for one flow."
  },
  {
   "property": "C54",
   "status": "proved",
   "theorems": [
    "C54_check_mutable",
    "C54_accepts",
    "C54_check_static"
   ],
   "note": "weights and counts unbounded; the cut of the reverse index to 32 bits is not modelled"
  },
  {
   "property": "C55",
   "status": "proved",
   "theorems": [
    "C55_top_k"
   ],
   "note": "the overload for mutable graphs; the static ones differ in the degree used"
  },
  {
   "property": "C56",
   "status": "proved",
   "theorems": [
    "C56_central_flow_edge"
   ],
   "note": ""
  },
  {
   "property": "C57",
   "status": "partial",
   "theorems": [
    "C57_core_graph_partial",
    "C57_core_graph_refuted"
   ],
   "note": "proved for unit weights; refuted otherwise: the final check compares the weighted minimum degree with the core number and calls exit(1)"
  },
  {
   "property": "C58",
   "status": "partial",
   "theorems": [
    "C58_sizes_partial",
    "C58_refuted"
   ],
   "note": "exact on a new object; refuted for a used one (sizes are not reset)"
  },
  {
   "property": "C59",
   "status": "proved",
   "theorems": [
    "C59_largest_scc"
   ],
   "note": ""
  },
  {
   "property": "C60",
   "status": "partial",
   "theorems": [
    "C60_complete_partial",
    "C60_chord_refuted",
    "C60_removal_refuted",
    "C60_zero_refuted"
   ],
   "note": "False in general (three witnesses of one call each). Proved: soundness and completeness for sequences as in C43 that insert edges of positive weight and whose removals do not bring further cuts of the current value, if the static algorithms answer completely on the graphs of the history."
  },
  {
   "property": "C61",
   "status": "partial",
   "theorems": [
    "C61_exact_partial",
    "C61_refuted"
   ],
   "note": "Always terminates with a real cut not above that of VieCut; exact for every interleaving in which the two reads of visited[tgt] agree; false otherwise (C61_refuted). The concurrent union-find and the parallel contraction are replaced by sequential ones."
  },
  {
   "property": "C62",
   "status": "partial",
   "theorems": [
    "C62_equal_neighborhood_partial",
    "C62_merges_twins_partial",
    "C62_hash_refuted"
   ],
   "note": "Proved for every graph and hash function without collisions of seeds between vertices of different degree; with a collision (hash functions the C++ standard allows) the rule loses the optimum and reads behind the end of a list (C62_hash_refuted)."
  },
  {
   "property": "C63",
   "status": "proved",
   "theorems": [
    "C63_articulation_rule",
    "C63_never_exits"
   ],
   "note": "All valid graphs, any number of terminals and components."
  },
  {
   "property": "C64",
   "status": "proved",
   "theorems": [
    "C64_articulation_points",
    "C64_first_vertex_refuted"
   ],
   "note": "Exact characterisation; C64_first_vertex_refuted shows that the exception (first vertex of a component) is real."
  },
  {
   "property": "C65",
   "status": "proved",
   "theorems": [
    "C65_local_search",
    "C65_pair_optimal",
    "C65_first_move",
    "C65_exact_refuted"
   ],
   "note": "All parts. C65_exact_refuted shows that the equality needs the absence of parallel edges: with them the reported improvement may be smaller than the real one."
  },
  {
   "property": "C66",
   "status": "proved",
   "theorems": [
    "C66_most_balanced"
   ],
   "note": "For every cactus that satisfies cactus_of (SpecCactus.cactus, exact groups, sound and complete) and has no parallel edges; c66_parallel shows that the last condition is needed. That the cactus built by the library satisfies it is not part of the claim."
  },
  {
   "property": "C67",
   "status": "partial",
   "theorems": [
    "C67_all_mincuts_partial",
    "C67_value_refuted",
    "C67_start_refuted",
    "C67_groups_refuted"
   ],
   "note": "Termination, a value that is never too small, exact groups, and a correct cactus whenever the value is right, for every graph; the value is right up to 100 vertices. The full statement C67_statement is false: C67_value_refuted (105 vertices, value 2 instead of 1). C67_start_refuted: with a start value above the minimum cut a leaf is returned as a false minimum cut. C67_groups_refuted: a stale group of the recursive cactus ends up in a leaf. The recursive construction is a parameter with contract (solves), which itself_solves shows to be satisfiable."
  },
  {
   "property": "C68",
   "status": "partial",
   "theorems": [
    "C68_par_pr_tests_partial",
    "C68_wide_degrees_refuted"
   ],
   "note": "Proved for all graphs whose degrees fit 32 bits. The full statement C68_statement (any weights) is false: C68_wide_degrees_refuted, prTests34 keeps degrees in NodeID. Includes the concurrent union-find of C03."
  },
  {
   "property": "C69",
   "status": "partial",
   "theorems": [
    "C69_new_flow_partial",
    "C69_old_partition_refuted"
   ],
   "note": "Proved for the solutions read after a new flow (two terminals, or more). The full statement C69_statement, which also covers the problems with fewer than two terminals, is false: C69_old_partition_refuted, on a star with three terminals and one more edge flowValue stops the program."
  },
  {
   "property": "C70",
   "status": "partial",
   "theorems": [
    "C70_branch_and_bound_partial",
    "C70_anytime_partial",
    "C70_old_partition_refuted",
    "C70_no_local_search_refuted"
   ],
   "note": "Proved for all runs in which the solutions reported without a new flow are solutions within the deleted weight (log_ok); calls of findBestSolution and solveProblem are atomic, kernelization enters by its contract kernel_of. Without log_ok the statement C70_statement is false (C70_old_partition_refuted), and so it is with configuration::runLocalSearch off (C70_no_local_search_refuted)."
  },
  {
   "property": "C71",
   "status": "partial",
   "theorems": [
    "C71_concurrent_partial",
    "C71_lost_update_refuted"
   ],
   "note": "Proved: whole solutions, bound not below the optimum, progress, bounded number of steps, a solution is recorded at the end. False: that the best one is kept (C71_lost_update_refuted): comparison and update of global_upper_bound are outside of the mutex."
  },
  {
   "property": "C72",
   "status": "proved",
   "theorems": [
    "C72_st_cactus",
    "C72_order_needed"
   ],
   "note": "The chain and the edge between the end blocks are hypotheses here; C72_order_needed shows that the numbering cannot be dropped."
  },
  {
   "property": "C73",
   "status": "proved",
   "theorems": [
    "C73_limited_flow",
    "C73_two_terminals"
   ],
   "note": "Flows are unbounded integers (the code uses 64 bit). Depths above the number of vertices are not covered; from 2n - 1 on the code writes out of range (c73_too_deep)."
  },
  {
   "property": "C74",
   "status": "proved",
   "theorems": [
    "C74_rebuild",
    "C74_flow_and_cactus",
    "C74_dynamic",
    "C74_removals"
   ],
   "note": "Minimum cuts below 2^32 (the bucket queue of findSTCactus, C72). C74_dynamic replaces the assumptions of C43 and C60 about the flow and the rebuild; findAllMincuts and NOI stay parameters there. C74_removals needs a right cactus at the start only."
  },
  {
   "property": "C75",
   "status": "partial",
   "theorems": [
    "C75_recursive_cactus_refuted"
   ],
   "note": "Refuted for edge_selection random: on a cubic graph of eight vertices with minimum cut 3 the result has an empty leaf and lacks the minimum cuts {2} and {5}. Nothing positive is proved about the whole recursion yet."
  },
  {
   "property": "C76",
   "status": "proved",
   "theorems": [
    "C76_merge",
    "C76_junctions"
   ],
   "note": "The two graphs and the agreement of the families at the merge vertex are hypotheses; that recursiveCactus meets them in every call is not shown (and fails for random flow edges, C75)."
  },
  {
   "property": "C77",
   "status": "proved",
   "theorems": [
    "C77_component_step"
   ],
   "note": "The recursive calls are a hypothesis (correct on smaller graphs without empty vertices). The leaf branch (171-198) is excluded by no_leaf; with it the claim about the whole recursion is false (C75)."
  },
  {
   "property": "C78",
   "status": "proved",
   "theorems": [
    "C78_step"
   ],
   "note": "The recursive calls are a hypothesis: correct on smaller graphs, also on those with vertices taken out. The recursion of the code does not always meet it (C75_recursive_cactus_refuted): the step itself is right, the loss happens in findSTCactus and mergeGraphs one level below."
  },
  {
   "property": "C79",
   "status": "proved",
   "theorems": [
    "C79_heavy"
   ],
   "note": "C is any graph that represents the minimum cuts of the reduced graph (record rep_live), with one group per vertex. contractCycleEdges and reInsertCycles lie between the two steps in the code and are not part of this theorem (they are modelled for C75)."
  },
  {
   "property": "C80",
   "status": "partial",
   "theorems": [
    "C80_find_cliques_partial",
    "C80_complete_refuted"
   ],
   "note": "Soundness, termination, absence of out-of-range reads and absence of duplicates are proved. The last sentence of the statement is false of the code (C80_complete_refuted): the search at a vertex ends at the first neighbour whose branch is cut off."
  },
  {
   "property": "C81",
   "status": "proved",
   "theorems": [
    "C81_semi_isolated",
    "C81_clique_round"
   ],
   "note": "The sums of contractSemiIsolatedCliques are ideal (no wrap at 2^64). The round is the one of the kernelization (rule_step); the code includes maximal_clique.h there."
  },
  {
   "property": "C82",
   "status": "proved",
   "theorems": [
    "C82_parallel_contraction",
    "C82_parallel_contraction_mutable",
    "C82_one_block_refuted"
   ],
   "note": "Weights are unbounded. insert_or_update and find of the growt table are atomic (its contract); a compare-and-swap loop is one step. The test that switches the contested edge on is an arbitrary bit. For a mutable graph with one block the code reads el[1] out of range (C82_one_block_refuted), therefore the condition of two blocks."
  },
  {
   "property": "C83",
   "status": "proved",
   "theorems": [
    "C83_parallel_labels",
    "C83_parallel_round"
   ],
   "note": "One step per access to cluster_mapping, sequentially consistent memory (the accesses are plain, so by the letter of the standard they race). C83_parallel_round takes any result of the parallel contraction (C82)."
  },
  {
   "property": "C84",
   "status": "partial",
   "theorems": [
    "C84_parallel_trivial_cuts_idle",
    "C84_keeps_clustering_partial",
    "C84_splits_refuted"
   ],
   "note": "The clustering is kept because nothing is ever changed (C84_parallel_trivial_cuts_idle); the second sentence is false of the code (C84_splits_refuted). Because nothing is changed, rounds of different threads do not disturb each other."
  },
  {
   "property": "C85",
   "status": "partial",
   "theorems": [
    "C85_random_matching_partial",
    "C85_late_partner_refuted",
    "C85_isolated_refuted"
   ],
   "note": "Proved for graphs without isolated vertices and for all draws in which no vertex is matched after it gave up; both restrictions are needed (the two refutations). Missing: 64-bit overflow of the added weights, 32-bit places in edge_positions."
  },
  {
   "property": "C86",
   "status": "proved",
   "theorems": [
    "C86_heavy_vertices",
    "C86_printed_cut",
    "C86_weights_refuted",
    "C86_regular_prints_zero",
    "C86_unmarked_prints_zero"
   ],
   "note": "The bound is any number (getPercentile is not modelled). C86_weights_refuted: for weighted graphs the weights are lost. C86_regular_prints_zero and C86_unmarked_prints_zero: two ways in which 0 is printed although the minimum cut is positive. Weights are unbounded."
  },
  {
   "property": "C87",
   "status": "proved",
   "theorems": [
    "C87_map_bucket_is_priority_queue",
    "C87_getkey_changes_refuted"
   ],
   "note": "By simulation of node_bucket_pq (C06). The preconditions are those of C06; C87_getkey_changes_refuted shows what happens without that of getKey. Addresses are not truncated to 32 bits."
  },
  {
   "property": "C88",
   "status": "proved",
   "theorems": [
    "C88_residual_graph",
    "C88_create_flow_graph",
    "C88_loop_refuted"
   ],
   "note": "Capacities are unbounded integers, the edge counter is not truncated to 32 bits. C88_loop_refuted: loops have to be excluded."
  },
  {
   "property": "C89",
   "status": "proved",
   "theorems": [
    "C89_one_ks",
    "C89_draw",
    "C89_can_finish",
    "C89_bias_refuted",
    "C89_components_refuted",
    "C89_option_refuted"
   ],
   "note": "C89_draw says which numbers lead to which edge. The refuted theorems: edges of equal weight are not drawn equally often; no end on graphs with three components; the option -c of mincut_contract has no effect. floor(n * factor) is a parameter, weights are unbounded."
  },
  {
   "property": "C90",
   "status": "proved",
   "theorems": [
    "C90_make_weighted",
    "C90_parallel_refuted",
    "C90_isolated_refuted"
   ],
   "note": "The refuted theorems show that parallel edges and isolated vertices have to be excluded. Keys are pairs (ids below 2^32), weights unbounded."
  },
  {
   "property": "C91",
   "status": "proved",
   "theorems": [
    "C91_gnp_torus",
    "C91_torus_structure",
    "C91_mincut_refuted"
   ],
   "note": "C91_mincut_refuted: the minimum cut can be below 4 * cut, and there are loops. Ids and weights are unbounded."
  },
  {
   "property": "C92",
   "status": "proved",
   "theorems": [
    "C92_temporal_cc",
    "C92_deleted_refuted"
   ],
   "note": "C92_deleted_refuted: deletions join vertices too, so the kept edges need not be connected after all deletions. Reading and writing of the text are not modelled here; counters are unbounded."
  }
 ]
}