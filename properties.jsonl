{"id": "C01", "title": "Sequential union-find computes the connectivity closure", "statement": "After any sequence of Union calls on a fresh structure over n elements, Find(x)=Find(y) holds exactly when x and y are connected by the pairs passed to Union; Find always terminates, its answer is in range, and asking (which compresses paths) never changes any later answer.", "quantifier": "every n, every sequence of Union/Find calls with in-range arguments, every pair x,y", "why_tests_cant": "the claim is about every history; path compression and rank make the internal forest history dependent", "anchors": ["lib/data_structure/union_find.h:union_find::Union", "lib/data_structure/union_find.h:union_find::Find"]}
{"id": "C02", "title": "Union-find set counter is exact", "statement": "After any sequence of Union calls, n() equals the number of connected classes of the requested pairs, and each Union call returns true exactly when it joined two different classes.", "quantifier": "every n and every sequence of Union calls", "why_tests_cant": "contraction sizes its output arrays with n(); one drift in any history corrupts memory", "anchors": ["lib/data_structure/union_find.h:union_find::n", "lib/data_structure/union_find.h:union_find::Union"]}
{"id": "C03", "title": "Concurrent union-find never joins unrequested elements", "statement": "In the parallel union-find, under every interleaving of concurrent Union and Find calls by any number of threads, two elements ever observed in one set are connected by the pairs passed to the Union calls issued so far.", "quantifier": "every number of threads, every program of Union/Find calls per thread, every interleaving of their atomic reads, compare-and-swaps and plain accesses", "why_tests_cant": "schedules cannot be enumerated by tests", "anchors": ["lib/parallel/data_structure/union_find.h:union_find::Union", "lib/parallel/data_structure/union_find.h:union_find::Find", "lib/parallel/data_structure/union_find.h:union_find::UpdateRoot"]}
{"id": "C04", "title": "Concurrent union-find calls terminate once the other threads stop", "statement": "In the parallel union-find, from every state reached by any interleaving of concurrent Union and Find calls, any call in progress returns after a bounded number (linear in n) of its own steps once the other threads stop; in particular Find always terminates after the writers have stopped.", "quantifier": "every number of threads, every program of Union/Find calls, every interleaving, every thread and every point inside a call", "why_tests_cant": "needs every schedule; intermediate states can even contain cyclic parent links", "anchors": ["lib/parallel/data_structure/union_find.h:union_find::Union", "lib/parallel/data_structure/union_find.h:union_find::UpdateRoot", "lib/parallel/data_structure/union_find.h:union_find::Find"]}
{"id": "C05", "title": "Binary heap priority queue behaves as a max-priority queue", "statement": "vecMaxNodeHeap and maxNodeHeap, after any sequence of insert, deleteMax, deleteNode, increaseKey, decreaseKey and changeKey calls made within their preconditions, hold exactly the elements and keys a plain finite map would hold; contains, getKey, size and empty agree with that map, and deleteMax removes and returns an element of maximal key.", "quantifier": "every operation sequence with in-range node ids, every key", "why_tests_cant": "heap order and the position index must survive every sift path", "anchors": ["lib/data_structure/priority_queues/vecMaxNodeHeap.h:vecMaxNodeHeap", "lib/data_structure/priority_queues/maxNodeHeap.h:maxNodeHeap"]}
{"id": "C06", "title": "Bucket priority queues behave as max-priority queues", "statement": "node_bucket_pq and fifo_node_bucket_pq, after any sequence of insert, deleteMax, deleteNode, increaseKey and changeKey calls whose keys are within the gain span, hold exactly the elements and keys of a plain finite map; deleteMax returns an element of maximal key; no access leaves the bucket arrays.", "quantifier": "every operation sequence with keys within the declared span and in-range node ids", "why_tests_cant": "the cached maximum index and the per-node position index depend on the whole history", "anchors": ["lib/data_structure/priority_queues/node_bucket_pq.h:node_bucket_pq", "lib/data_structure/priority_queues/fifo_node_bucket_pq.h:fifo_node_bucket_pq"]}
{"id": "C07", "title": "Bucket queue deletion order is LIFO respectively FIFO among equal keys", "statement": "Among elements of the maximal key, node_bucket_pq::deleteMax returns the one placed in that bucket last, and fifo_node_bucket_pq::deleteMax the one placed first, as long as no element was removed from the middle of the bucket in between.", "quantifier": "every sequence of insertions and deleteMax calls", "why_tests_cant": "depends on the history of the bucket", "anchors": ["lib/data_structure/priority_queues/node_bucket_pq.h:deleteMax", "lib/data_structure/priority_queues/fifo_node_bucket_pq.h:deleteMax"]}
{"id": "C08", "title": "Graph construction stores exactly the given edges", "statement": "After start_construction(n,m), nodes and edges added in source order and finish_construction, the static graph reports for each node exactly the edges added for it, in order, with their targets and weights; nodes without edges have an empty range; self loops are dropped; number_of_nodes and number_of_edges are exact.", "quantifier": "every n and every list of edges grouped by ascending source (including gaps for isolated nodes)", "why_tests_cant": "the implicit back-filling of skipped nodes must work for every gap pattern", "anchors": ["lib/data_structure/graph_access.h:graph_access::start_construction", "lib/data_structure/graph_access.h:basicGraph::new_edge", "lib/data_structure/graph_access.h:basicGraph::new_node", "lib/data_structure/graph_access.h:basicGraph::finish_construction"]}
{"id": "C09", "title": "Cached degrees equal the sum of incident edge weights", "statement": "getWeightedNodeDegree, getMinDegree and getMaxDegree of a finished static graph equal the sum, the minimum and the maximum of the incident edge weights at the time of the call, also after setEdgeWeight.", "quantifier": "every finished graph and every sequence of weight updates", "why_tests_cant": "staleness only shows after particular call orders", "anchors": ["lib/data_structure/graph_access.h:graph_access::computeDegrees", "lib/data_structure/graph_access.h:graph_access::getWeightedNodeDegree", "lib/data_structure/graph_access.h:graph_access::setEdgeWeight"]}
{"id": "C10", "title": "Contraction along a clustering preserves all cuts that respect it", "statement": "contractGraph / fromUnionFind on a static graph returns a graph with one vertex per cluster such that for every vertex subset of the result the cut weight equals the cut weight of the union of the corresponding clusters in the input.", "quantifier": "every symmetric weighted graph, every clustering, every subset", "why_tests_cant": "an equality of two sums for all subsets of all graphs", "anchors": ["lib/coarsening/contract_graph.h:contraction::contractGraphSparse", "lib/coarsening/contract_graph.h:contraction::fromUnionFind"]}
{"id": "C11", "title": "Contraction never lowers the minimum cut and keeps an uncut minimum cut", "statement": "The minimum cut value of a contracted graph with at least two vertices is at least that of the input; if some minimum cut of the input separates no cluster the values are equal.", "quantifier": "every graph and every clustering with at least two clusters", "why_tests_cant": "universally quantified over graphs and clusterings", "anchors": ["lib/coarsening/contract_graph.h:contraction::contractGraph"]}
{"id": "C12", "title": "CAPFOREST contracts only pairs of high connectivity", "statement": "Every pair of vertices that noi_minimum_cut::modified_capforest places in one set of the returned union-find has edge connectivity at least the bound it was given, whatever the start vertex and however the priority queue breaks ties.", "quantifier": "every symmetric weighted graph, every bound, every start vertex, every tie breaking", "why_tests_cant": "graph theoretic guarantee behind exactness; cannot be sampled", "anchors": ["lib/algorithms/global_mincut/noi_minimum_cut.h:noi_minimum_cut::modified_capforest"]}
{"id": "C13", "title": "NOI returns the exact global minimum cut", "statement": "noi_minimum_cut::perform_minimum_cut returns exactly the weight of a minimum cut, for every graph with at least two vertices, whatever random start vertices and queue implementation are used.", "quantifier": "every symmetric weighted graph with n >= 2, every sequence of random choices", "why_tests_cant": "exactness over all graphs", "anchors": ["lib/algorithms/global_mincut/noi_minimum_cut.h:noi_minimum_cut::perform_minimum_cut", "lib/algorithms/global_mincut/minimum_cut_helpers.h:minimum_cut_helpers::updateCut"]}
{"id": "C14", "title": "Each CAPFOREST round makes progress", "statement": "On a graph with at least two vertices whose bound does not exceed the smallest vertex degree, modified_capforest joins at least one pair (or the graph is disconnected and the cut 0 is found), so the contraction loop of noi_minimum_cut terminates within n rounds.", "quantifier": "every connected graph, every bound up to the minimum degree, every start vertex and tie breaking", "why_tests_cant": "termination for every input", "anchors": ["lib/algorithms/global_mincut/noi_minimum_cut.h:noi_minimum_cut::modified_capforest", "lib/algorithms/global_mincut/noi_minimum_cut.h:noi_minimum_cut::perform_minimum_cut"]}
{"id": "C15", "title": "The saved cut matches the returned value", "statement": "When saving of cuts is enabled, after noi_minimum_cut::perform_minimum_cut the vertices marked as in the cut form a proper nonempty subset of the input graph's vertices whose cut weight equals the returned value.", "quantifier": "every symmetric weighted graph with n >= 2, every run", "why_tests_cant": "composition of per-level markings over any number of contraction levels", "anchors": ["lib/algorithms/global_mincut/minimum_cut_helpers.h:minimum_cut_helpers::updateCut", "lib/algorithms/global_mincut/minimum_cut_helpers.h:minimum_cut_helpers::retrieveMinimumCut", "lib/algorithms/global_mincut/minimum_cut_helpers.h:minimum_cut_helpers::setInitialCutValues", "lib/algorithms/global_mincut/noi_minimum_cut.h:noi_minimum_cut::perform_minimum_cut"]}
{"id": "C16", "title": "Matula's algorithm is a (2+eps)-approximation", "statement": "matula_approx::perform_minimum_cut returns the weight of an actual cut that is at most 2*lambda+1 where lambda is the minimum cut weight, and 0 when lambda is 0.", "quantifier": "every symmetric weighted graph with n >= 2, every run", "why_tests_cant": "approximation ratio over all graphs", "anchors": ["lib/algorithms/global_mincut/matula_approx.h:matula_approx::perform_minimum_cut"]}
{"id": "C17", "title": "Padberg-Rinaldi tests 1 and 2 never destroy the minimum cut", "statement": "If the pairs joined by prTests12(G, limit) are contracted, no minimum cut of weight below limit separates a joined pair, so the contracted graph has the same minimum cut, provided limit is at most every degree (or find_all_cuts is set).", "quantifier": "every symmetric weighted graph and every limit not above the minimum degree (any limit with find_all_cuts), degrees of any 64-bit size", "why_tests_cant": "covers all graphs, including weights beyond 32 bits", "anchors": ["lib/coarsening/contraction_tests.h:tests::prTests12"]}
{"id": "C18", "title": "Padberg-Rinaldi tests 3 and 4 never destroy the minimum cut", "statement": "If the pairs joined by prTests34(G, limit) are contracted and the minimum cut is below limit, the contracted graph has the same minimum cut; with find_all_cuts no minimum cut below limit separates a joined pair.", "quantifier": "every simple symmetric weighted graph and every limit not above the minimum degree (any limit with find_all_cuts)", "why_tests_cant": "covers all graphs", "anchors": ["lib/coarsening/contraction_tests.h:tests::prTests34"]}
{"id": "C19", "title": "Heuristics only ever report real cuts", "statement": "The value returned by viecut, padberg_rinaldi and ks_minimum_cut is the weight of some proper nonempty vertex subset of the input graph, hence never below the true minimum cut.", "quantifier": "every symmetric weighted graph with n >= 2 and every clustering sequence the heuristics may choose", "why_tests_cant": "all random choices and all graphs", "anchors": ["lib/algorithms/global_mincut/viecut.h:viecut::perform_minimum_cut", "lib/algorithms/global_mincut/padberg_rinaldi.h:padberg_rinaldi::perform_minimum_cut", "lib/algorithms/global_mincut/ks_minimum_cut.h:ks_minimum_cut::perform_minimum_cut"]}
{"id": "C20", "title": "The multi-level cut retrieval is right for any contraction hierarchy", "statement": "Marking the cheapest vertex of some level as cut and mapping the marks back through the recorded cluster indices yields, on the input graph, a vertex set whose cut weight is that vertex's degree in that level.", "quantifier": "every hierarchy of clusterings of every graph", "why_tests_cant": "any number of levels", "anchors": ["lib/algorithms/global_mincut/minimum_cut_helpers.h:minimum_cut_helpers::retrieveMinimumCut", "lib/algorithms/global_mincut/minimum_cut_helpers.h:minimum_cut_helpers::updateCut"]}
{"id": "C21", "title": "Mutable graph edge insertion keeps the representation valid", "statement": "After start_construction and any sequence of new_edge_order / new_edge / setEdgeWeight / deleteEdge calls in range, the mutable graph is valid: every half edge has its reverse at the recorded index with equal weight, cached degrees equal the sums, and the edge count is exact; the weight function seen through the API is the one obtained by applying the same updates to a symmetric weight table.", "quantifier": "every sequence of in-range operations", "why_tests_cant": "swap-with-last deletion must re-link reverse indices for every layout", "anchors": ["lib/data_structure/mutable_graph.h:mutable_graph::new_edge_order", "lib/data_structure/mutable_graph.h:mutable_graph::deleteEdge", "lib/data_structure/mutable_graph.h:mutable_graph::setEdgeWeight", "lib/algorithms/misc/graph_algorithms.h:graph_algorithms::checkGraphValidity"]}
{"id": "C22", "title": "Vertex deletion in the mutable graph removes exactly that vertex", "statement": "deleteVertex(v) leaves a valid graph in which the former last vertex takes index v and every other pair of vertices keeps its weight.", "quantifier": "every valid mutable graph and every vertex", "why_tests_cant": "renumbering touches arbitrary reverse links", "anchors": ["lib/data_structure/mutable_graph.h:mutable_graph::deleteVertex"]}
{"id": "C23", "title": "Edge contraction in the mutable graph preserves respecting cuts", "statement": "contractEdge(v,e) merges the two endpoints: the result is valid, has one vertex fewer, the set of original vertices per vertex is merged, and every vertex pair of the result has the sum of the weights between the corresponding original groups.", "quantifier": "every valid mutable graph (parallel edges allowed, any vertex position) and every edge", "why_tests_cant": "vertex renumbering and hash-map merging depend on layout", "anchors": ["lib/data_structure/mutable_graph.h:mutable_graph::contractEdge"]}
{"id": "C24", "title": "Vertex-set contraction in the mutable graph preserves respecting cuts", "statement": "contractVertexSet(S) merges S into one vertex: the result is valid, positions of original vertices are updated consistently, and the weight between any two vertices of the result is the sum of weights between the corresponding groups of the input.", "quantifier": "every valid mutable graph and every set of at least two of its vertices", "why_tests_cant": "renumbering, reverse links and weight accumulation for every layout", "anchors": ["lib/data_structure/mutable_graph.h:mutable_graph::contractVertexSet"]}
{"id": "C25", "title": "Static to mutable conversion preserves edge weights", "statement": "mutable_graph::from_graph_access(G) has the same vertex set and between each pair of vertices the same total weight as G, and to_graph_access gives back a graph with the same weights.", "quantifier": "every symmetric static graph, including multigraphs", "why_tests_cant": "parallel edges take a separate code path", "anchors": ["lib/data_structure/mutable_graph.h:mutable_graph::from_graph_access", "lib/data_structure/mutable_graph.h:mutable_graph::to_graph_access"]}
{"id": "C26", "title": "Mutable graph serialisation round-trips", "statement": "deserialize(serialize(G)) is observably equal to G: same vertices, same edges with weights, same grouping of original vertices.", "quantifier": "every valid mutable graph", "why_tests_cant": "the wire format mixes two kinds of numbers in one stream; all size combinations matter", "anchors": ["lib/data_structure/mutable_graph.h:mutable_graph::serialize", "lib/data_structure/mutable_graph.h:mutable_graph::deserialize", "lib/algorithms/multicut/mpi_communication.h:mpi_communication::sendProblem"]}
{"id": "C27", "title": "Weighted METIS files round-trip", "statement": "Reading back a file produced by writeGraphWeighted gives the same graph: same node count, same adjacency lists with the same weights.", "quantifier": "every static graph without self loops whose ids and weights fit their types", "why_tests_cant": "all graphs and all number lengths", "anchors": ["lib/io/graph_io.h:graph_io::readGraphWeighted", "lib/io/graph_io.h:graph_io::writeGraphWeighted", "lib/io/graph_io.h:graph_io::fast_atoi"]}
{"id": "C28", "title": "METIS reader drops self loops and nothing else", "statement": "readGraphWeighted on a syntactically valid file yields exactly the listed edges except self loops, for weighted and unweighted files.", "quantifier": "every valid METIS file", "why_tests_cant": "one loop in a weighted line shifts the parse of the rest", "anchors": ["lib/io/graph_io.h:graph_io::readGraphWeighted"]}
{"id": "C29", "title": "Push-relabel keeps a valid preflow and labelling", "statement": "At every point of the push-relabel main loop the flow is antisymmetric, never exceeds a capacity, excess is the net inflow and non-negative at every vertex other than the source, and every residual edge drops by at most one distance level.", "quantifier": "every valid mutable graph, every terminal set and every step of every execution", "why_tests_cant": "invariant of an unbounded loop", "anchors": ["lib/algorithms/flow/push_relabel.h:push_relabel::push", "lib/algorithms/flow/push_relabel.h:push_relabel::relabel", "lib/algorithms/flow/push_relabel.h:push_relabel::global_relabeling", "lib/algorithms/flow/push_relabel.h:push_relabel::discharge"]}
{"id": "C30", "title": "Push-relabel returns the maximum flow and a minimum cut side", "statement": "When solve_max_flow_min_cut terminates without the limit option, the returned value equals the minimum weight of a vertex set containing the source and no other terminal, and the returned source set is such a set of that weight.", "quantifier": "every valid graph and terminal set", "why_tests_cant": "optimality against exponentially many cuts", "anchors": ["lib/algorithms/flow/push_relabel.h:push_relabel::solve_max_flow_min_cut", "lib/algorithms/flow/push_relabel.h:push_relabel::computeSourceSet"]}
{"id": "C31", "title": "Multiterminal cut value is the weight of the reported partition", "statement": "measurements::flowValue(sol) equals the total weight of edges between different blocks of sol, each undirected edge counted once.", "quantifier": "every symmetric graph and every block assignment", "why_tests_cant": "half-sum identity for all graphs", "anchors": ["lib/algorithms/multicut/measurements.h:measurements::flowValue"]}
{"id": "C32", "title": "High-degree kernelization preserves the optimal multiterminal cut", "statement": "Contracting the pairs chosen by highDegreeContraction does not change the optimal multiterminal cut value.", "quantifier": "every symmetric weighted graph and terminal set", "why_tests_cant": "simultaneous use of many local exchange arguments", "anchors": ["lib/algorithms/multicut/kernelization_criteria.h:kernelization_criteria::highDegreeContraction"]}
{"id": "C33", "title": "Low-degree kernelization preserves the optimal multiterminal cut", "statement": "Contracting the pairs chosen by lowDegreeContraction does not change the optimal multiterminal cut value.", "quantifier": "every symmetric weighted graph and terminal set", "why_tests_cant": "rule interactions around terminals", "anchors": ["lib/algorithms/multicut/kernelization_criteria.h:kernelization_criteria::lowDegreeContraction"]}
{"id": "C34", "title": "Triangle kernelization preserves the optimal multiterminal cut", "statement": "Contracting the pairs chosen by triangleDetection does not change the optimal multiterminal cut value.", "quantifier": "every symmetric weighted graph and terminal set", "why_tests_cant": "needs a quantification over all placements of the third vertex", "anchors": ["lib/algorithms/multicut/kernelization_criteria.h:kernelization_criteria::triangleDetection"]}
{"id": "C35", "title": "Branching is exhaustive", "statement": "The subproblems generated by multiBranch (and by singleBranch without its degree-three shortcut) together contain an optimal solution: the minimum over the children of deleted weight plus optimum equals that of the parent.", "quantifier": "every graph, terminal set and branching vertex chosen", "why_tests_cant": "exactness of branch and bound for every instance", "anchors": ["lib/algorithms/multicut/problem_management.h:problem_management::multiBranch", "lib/algorithms/multicut/problem_management.h:problem_management::singleBranch", "lib/algorithms/multicut/edge_selection.h:findEdgeMultiBranch"]}
{"id": "C36", "title": "Degree-three shortcut in edge branching preserves the optimum of its branch", "statement": "When singleBranch uses degreeThreeContraction for the branch where the chosen edge is kept, the optimum over solutions keeping that edge is not lost.", "quantifier": "every graph, terminal set and chosen edge", "why_tests_cant": "depends on global structure of the instance", "anchors": ["lib/algorithms/multicut/problem_management.h:problem_management::degreeThreeContraction"]}
{"id": "C37", "title": "Isolating cuts bound the multiterminal optimum", "statement": "After maximumIsolatingFlow the reported lower bound is at most and the reported upper bound is at least the optimal multiterminal cut value (deleted weight included), contracting the isolating blocks keeps the optimum, and the partition indices left in the graph are a solution no worse than the upper bound. Terminals flagged as having a valid flow must already be minimum isolating sets.", "quantifier": "every valid graph, terminal set, order of vertex selection in the flows, sequential or threaded flows", "why_tests_cant": "optimality over all partitions", "anchors": ["lib/algorithms/multicut/maximum_flow.h:maximum_flow::maximumIsolatingFlow", "lib/algorithms/multicut/graph_contraction.h:graph_contraction::contractIsolatingBlocks"]}
{"id": "C38", "title": "Terminal-terminal edges are accounted exactly once", "statement": "deleteTermEdges removes precisely the edges between terminals and increases the deleted weight by their total weight, so deleted weight plus optimum is unchanged.", "quantifier": "every problem state", "why_tests_cant": "loop deletes while iterating with changing indices", "anchors": ["lib/algorithms/multicut/graph_contraction.h:graph_contraction::deleteTermEdges"]}
{"id": "C39", "title": "The problem queue never loses a subproblem", "statement": "Every problem passed to per_thread_problem_queue::addProblem is eventually returned by exactly one pullProblem call or dropped by prepareQueue because its lower bound is not below the global bound; this holds under every interleaving of the worker threads.", "quantifier": "every number of threads, every sequence of calls, every interleaving", "why_tests_cant": "a lost problem silently makes the result wrong; only specific races lose one", "anchors": ["lib/algorithms/multicut/problem_queues/per_thread_problem_queue.h:per_thread_problem_queue::addProblem", "lib/algorithms/multicut/problem_queues/per_thread_problem_queue.h:per_thread_problem_queue::pullProblem", "lib/algorithms/multicut/problem_queues/per_thread_problem_queue.h:per_thread_problem_queue::prepareQueue"]}
{"id": "C40", "title": "Component-wise solutions are written back to the right vertices", "statement": "The global solution assembled by multiterminal_cut::multicut gives every vertex the block computed for it in its connected component.", "quantifier": "every graph, including ones with components without two terminals", "why_tests_cant": "index spaces (component number, problem number) coincide on small tests only", "anchors": ["lib/algorithms/multicut/multiterminal_cut.h:multiterminal_cut::multicut", "lib/algorithms/multicut/multiterminal_cut.h:multiterminal_cut::splitConnectedComponents"]}
{"id": "C41", "title": "Parallel CAPFOREST contracts only pairs of high connectivity", "statement": "Under every interleaving of the worker threads, every pair that exact_parallel_minimum_cut::parallel_modified_capforest joins has edge connectivity at least the given bound.", "quantifier": "every graph, bound, number of threads, start vertices and interleaving", "why_tests_cant": "benign-looking data races on the visited array", "anchors": ["lib/parallel/algorithm/exact_parallel_minimum_cut.h:parallel_modified_capforest"]}
{"id": "C42", "title": "All-cut reductions keep every minimum cut", "statement": "Contracting the pairs selected by allCutsPrTests12(G, lambda), by allCutsPrTests34(G, lambda) and by modified_capforest(G, lambda+1) separates no minimum cut, i.e. every minimum cut of the input is still a minimum cut, with the same sides and weight, of the contracted graph.", "quantifier": "every symmetric weighted graph with minimum cut lambda", "why_tests_cant": "quantifies over all minimum cuts of all graphs", "anchors": ["lib/algorithms/global_mincut/cactus/all_cut_local_red.h:all_cut_local_red::allCutsPrTests12", "lib/algorithms/global_mincut/cactus/all_cut_local_red.h:all_cut_local_red::allCutsPrTests34", "lib/algorithms/global_mincut/noi_minimum_cut.h:noi_minimum_cut::modified_capforest"]}
{"id": "C43", "title": "Dynamic minimum cut equals the recomputed value", "statement": "After initialize and any sequence of addEdge and removeEdge calls, the value reported by dynamic_mincut equals the minimum cut of the current graph.", "quantifier": "every initial graph and every update sequence", "why_tests_cant": "cache reuse depends on the whole history", "anchors": ["lib/algorithms/global_mincut/dynamic/dynamic_mincut.h:dynamic_mincut::addEdge", "lib/algorithms/global_mincut/dynamic/dynamic_mincut.h:dynamic_mincut::removeEdge"]}
{"id": "C44", "title": "Shuffles are permutations", "statement": "permutate_vector_good (both overloads), permutate_vector_good_small, permutate_vector_fast and permutate_vector_local return a permutation of their input for every random sequence and never index out of range; permutate_vector_local only moves entries inside blocks of 128; with init the result lists every index exactly once. circular_permutation returns a permutation of 0..n-1.", "quantifier": "every vector and every stream of random numbers", "why_tests_cant": "all random streams", "anchors": ["lib/tools/random_functions.h:random_functions"]}
{"id": "C45", "title": "Strongly connected components are exact", "statement": "strong_components terminates without accessing an empty stack or a vector out of range and numbers the components without gaps; two vertices get the same number exactly when each reaches the other along edges whose flow differs from their weight (mutable graph, with or without a flow problem id) or along all edges (static graph).", "quantifier": "every graph, flow assignment and problem id, new and used objects", "why_tests_cant": "all graphs, all edge orders, explicit stack instead of recursion", "anchors": ["lib/algorithms/misc/strongly_connected_components.h:strongly_connected_components::strong_components", "lib/algorithms/misc/strongly_connected_components.h:strongly_connected_components::explicit_scc_dfs"]}
{"id": "C46", "title": "k-core decomposition is exact", "statement": "batagelj_zaversnik returns, without accessing one of its vectors out of range, degrees with the core number of every vertex (the largest k such that the vertex lies in a subgraph in which every vertex has at least k edges), vertices as a permutation of all vertices by ascending core number, position as its inverse, and buckets[k] such that position[v] >= buckets[k] exactly for the vertices of the k-core.", "quantifier": "every undirected graph (edges listed at both ends equally often), every k up to the maximum degree", "why_tests_cant": "bucket bookkeeping over all orders", "anchors": ["lib/algorithms/misc/core_decomposition.h:core_decomposition::batagelj_zaversnik"]}
{"id": "C47", "title": "Label propagation output is a valid clustering", "statement": "propagate_labels followed by remap_cluster yields consecutive cluster ids, each used, and a reverse mapping that partitions the vertices accordingly, whatever the random order; findTrivialCuts turns such a clustering into another one.", "quantifier": "every graph and every random permutation", "why_tests_cant": "all random orders", "anchors": ["lib/coarsening/label_propagation.h:label_propagation::propagate_labels", "lib/algorithms/global_mincut/minimum_cut_helpers.h:minimum_cut_helpers::remap_cluster"]}
{"id": "C48", "title": "Breadth-first distances are shortest-path distances", "statement": "graph_algorithms::bfsDistances returns for every reachable vertex its hop distance from the start, a parent one step closer, and a vertex of maximal distance.", "quantifier": "every graph and start vertex", "why_tests_cant": "all graphs", "anchors": ["lib/algorithms/misc/graph_algorithms.h:graph_algorithms::bfsDistances"]}
{"id": "C49", "title": "Concurrent union-find keeps a forest and never loses a union", "statement": "In the parallel union-find, under every interleaving of concurrent calls the parent links never form a cycle of length two or more, and once all calls have returned both elements of every pair passed to Union are in one set.", "quantifier": "every number of threads, every program of Union/Find calls, every interleaving", "why_tests_cant": "needs a rare schedule between the rank check and the parent compare-and-swap", "anchors": ["lib/parallel/data_structure/union_find.h:union_find::Union", "lib/parallel/data_structure/union_find.h:union_find::UpdateRoot", "lib/parallel/data_structure/union_find.h:union_find::Find"]}
{"id": "C50", "title": "Adding a vertex to the mutable graph adds an empty isolated vertex", "statement": "new_empty_node() on a valid graph gives a valid graph with one vertex more, which has no edges and contains no original vertex; all weights and all groups of original vertices stay as they were. new_node() likewise, with a new original vertex as the content of the new vertex.", "quantifier": "every valid mutable graph reached by public operations (also after deleteVertex)", "why_tests_cant": "the tables of the structure shrink and grow independently of each other; only some histories make them disagree", "anchors": ["lib/data_structure/mutable_graph.h:mutable_graph::new_empty_node", "lib/data_structure/mutable_graph.h:mutable_graph::new_node", "lib/algorithms/global_mincut/cactus/graph_modification.h:graph_modification::canonizeCactus"]}
{"id": "C51", "title": "Flow kept in the graph under a problem id is the flow of the running problem only", "statement": "The sequential max-flow solver keeps its flow in the mutable graph under the id of its problem. Under an id that the graph does not carry yet, every sequence of getEdgeFlow and addEdgeFlow calls returns what it would return on a private flow vector that starts at zero, whatever earlier problems left behind.", "quantifier": "every graph, every left-over flow of other ids, every sequence of reads and additions", "why_tests_cant": "depends on left-over state of arbitrary earlier problems and on random ids", "anchors": ["lib/data_structure/mutable_graph.h:mutable_graph::getEdgeFlow", "lib/data_structure/mutable_graph.h:mutable_graph::addEdgeFlow", "lib/algorithms/flow/push_relabel.h:push_relabel::solve_max_flow_min_cut"]}
{"id": "C52", "title": "maximumSTFlow solves two-terminal problems", "statement": "When exactly two terminals have edges, maximumSTFlow leaves partition indices that are an optimal multiterminal cut and reports its value plus the deleted weight as upper bound.", "quantifier": "every valid graph, any number of isolated further terminals, every run of the flow solver", "why_tests_cant": "optimality over all partitions and all runs", "anchors": ["lib/algorithms/multicut/maximum_flow.h:maximum_flow::maximumSTFlow"]}
{"id": "C53", "title": "Non-terminal flows keep the multiterminal optimum", "statement": "Contracting the sets returned by nonTerminalFlow does not change the optimal multiterminal cut value.", "quantifier": "every valid graph, terminal set and choice of start vertices", "why_tests_cant": "optimality over all partitions and all random choices", "anchors": ["lib/algorithms/multicut/maximum_flow.h:maximum_flow::nonTerminalFlow", "lib/algorithms/multicut/kernelization_criteria.h:kernelization_criteria::kernelization"]}
{"id": "C54", "title": "checkGraphValidity accepts exactly the valid graphs", "statement": "checkGraphValidity reports 'Graph is valid!' for a mutable graph exactly when reverse edges match in target, weight and index, there are no loops or parallel edges, cached degrees and the edge count are exact and contained vertices point back; for a static graph exactly when it has no loops or parallel edges and every edge has a reverse edge of the same weight.", "quantifier": "every mutable graph object; every static graph with at most 2^32 vertices", "why_tests_cant": "the count 2*reverse_found == m replaces an explicit search for missing reverse edges; tests show single accepted or rejected graphs only", "anchors": ["lib/algorithms/misc/graph_algorithms.h:graph_algorithms::checkGraphValidity"]}
{"id": "C55", "title": "top_k_degrees returns k vertices of largest degree", "statement": "top_k_degrees returns k different vertices such that no vertex outside has a larger degree than a vertex inside, whatever order nth_element leaves.", "quantifier": "every graph, every k <= n, every implementation of nth_element", "why_tests_cant": "all graphs and all permitted outcomes of nth_element", "anchors": ["lib/algorithms/misc/graph_algorithms.h:graph_algorithms::find_top_k", "lib/algorithms/multicut/multiterminal_cut.h:multiterminal_cut::topKTerminals"]}
{"id": "C56", "title": "centralFlowEdge finds an edge", "statement": "centralFlowEdge never exits and returns an existing edge whose ends are at distance ceil(D/2) and ceil(D/2)-1 from the first end of a longest shortest path of length D, whatever vertex is drawn, if that vertex has an edge.", "quantifier": "every valid graph, every drawn vertex with an edge", "why_tests_cant": "random start vertex, all graphs", "anchors": ["lib/algorithms/global_mincut/cactus/recursive_cactus.h:recursive_cactus::centralFlowEdge"]}
{"id": "C57", "title": "createCoreGraph builds the k-core", "statement": "createCoreGraph builds the graph induced by the vertices of the k-core, in ascending order of their ids and with the original edge weights, and returns the graph induced in it by a largest connected component; it does not stop with an error.", "quantifier": "every undirected loop-free graph with a non-empty k-core", "why_tests_cant": "the sanity check at its end compares a weighted with an unweighted degree, so it depends on the weights; renumbering over all graphs", "anchors": ["lib/algorithms/misc/core_decomposition.h:core_decomposition::createCoreGraph"]}
{"id": "C58", "title": "Block sizes of strong_components are exact", "statement": "The third component of the result of strong_components gives, for every component number, the number of vertices with this number.", "quantifier": "every graph, flow assignment and object", "why_tests_cant": "depends on earlier calls on the same object", "anchors": ["lib/algorithms/misc/strongly_connected_components.h:strongly_connected_components::strong_components"]}
{"id": "C59", "title": "largest_scc returns a largest component", "statement": "largest_scc returns the graph induced by a largest set of mutually reachable vertices, in ascending order of their ids and with the original weights.", "quantifier": "every loop-free static graph, including the empty one", "why_tests_cant": "all graphs; ties between components; renumbering", "anchors": ["lib/algorithms/misc/strongly_connected_components.h:strongly_connected_components::largest_scc", "lib/tools/graph_extractor.h:graph_extractor::extract_block"]}
{"id": "C60", "title": "The dynamic cactus represents all minimum cuts", "statement": "After initialize and any sequence of addEdge and removeEdge calls, the cuts of minimum weight of the graph returned by getCurrentCactus correspond to the minimum cuts of the current graph: every one of them is a minimum cut, and every minimum cut is one of them.", "quantifier": "every initial graph and every update sequence", "why_tests_cant": "exponentially many cuts per state; depends on the whole history", "anchors": ["lib/algorithms/global_mincut/dynamic/dynamic_mincut.h:dynamic_mincut::addEdge", "lib/algorithms/global_mincut/dynamic/dynamic_mincut.h:dynamic_mincut::removeEdge", "lib/algorithms/global_mincut/dynamic/cactus_path.h:cactus_path::findPath"]}
{"id": "C61", "title": "The exact parallel algorithm returns the minimum cut", "statement": "exact_parallel_minimum_cut::perform_minimum_cut terminates under every interleaving of its worker threads and returns the value of a minimum cut together with marks of a cut of that value.", "quantifier": "every undirected weighted graph with at least two vertices, every number of threads, start vertices and interleaving, every cut VieCut may have found before", "why_tests_cant": "the wrong interleavings are rare and depend on the scheduler; the sequential result is needed as a reference for all graphs", "anchors": ["lib/parallel/algorithm/exact_parallel_minimum_cut.h:perform_minimum_cut", "lib/parallel/algorithm/exact_parallel_minimum_cut.h:parallel_modified_capforest"]}
{"id": "C62", "title": "The equal neighbourhood rule keeps the optimum", "statement": "equal_neighborhood::findEqualNeighborhoods only unites non-terminals whose weights to all other vertices agree, reads no list behind its end, and contracting its union-find keeps the optimum of the multiterminal cut problem (deleted weight added).", "quantifier": "every valid problem graph, set of active vertices, degree limit, hash function and order of equal elements in std::sort", "why_tests_cant": "depends on hash collisions, on std::sort's treatment of parallel edges and on all solutions of the problem", "anchors": ["lib/algorithms/misc/equal_neighborhood.h:equal_neighborhood::findEqualNeighborhoods"]}
{"id": "C63", "title": "The articulation point rule keeps the optimum and never exits", "statement": "find_articulation_points::terminalsOnBothSides never takes its exit(1) branch, terminates, and contracting its union-find keeps the optimum of the multiterminal cut problem (deleted weight added).", "quantifier": "every valid problem graph (connected or not, parallel edges allowed), every set of terminals, every order of hash sets", "why_tests_cant": "optimality over all solutions; the exit branch depends on the shape of the whole search tree", "anchors": ["lib/algorithms/misc/find_articulation_points.h:find_articulation_points::terminalsOnBothSides", "lib/algorithms/multicut/kernelization_criteria.h:kernelization_criteria::kernelization"]}
{"id": "C64", "title": "findAllArticulationPoints finds the articulation points", "statement": "findAllArticulationPoints terminates; the vertices reported are exactly the articulation points of the graph except that a vertex that is the first of its connected component is never reported.", "quantifier": "every valid mutable graph", "why_tests_cant": "a claim about reachability in all graphs and about all depth first orders of the stack", "anchors": ["lib/algorithms/misc/find_articulation_points.h:find_articulation_points::findAllArticulationPoints"]}
{"id": "C65", "title": "Local search never worsens a multiterminal cut", "statement": "local_search::improveSolution terminates without exit or out-of-range access, leaves fixed vertices and the separation of the terminals as they are, and the weight of the new solution plus the returned improvement is at most the weight of the old one, with equality when no two edges are parallel; flowBetweenBlocks leaves the best assignment of the free vertices of its two blocks.", "quantifier": "every valid graph, set of terminals and fixed vertices, starting solution, random permutation and shuffle, hash map order, order of the flow computation and pattern of timeouts", "why_tests_cant": "depends on random orders, timeouts and the interplay of stored best moves with moves of neighbours; optimality is over all assignments", "anchors": ["lib/algorithms/multicut/local_search.h:local_search::improveSolution", "lib/algorithms/multicut/local_search.h:local_search::gainLocalSearch", "lib/algorithms/multicut/local_search.h:local_search::flowBetweenBlocks", "lib/algorithms/multicut/problem_management.h:problem_management::findBestSolution"]}
{"id": "C66", "title": "The balanced cut taken from the cactus is a most balanced minimum cut", "statement": "most_balanced_minimum_cut::findCutFromCactus, given a cactus of all minimum cuts of positive value, terminates without out-of-range access or unsigned underflow and marks in the original graph one side of a minimum cut whose lighter side (in vertices, or in sum of degrees with find_lowest_conductance) is at least as large as that of every minimum cut; the edges it returns are exactly those between the sides.", "quantifier": "every graph, every simple cactus representing its minimum cuts with any grouping of the vertices and any number of empty vertices, every random start vertex, both balance criteria", "why_tests_cant": "optimality is over exponentially many minimum cuts and all cactus shapes; the depth first search and the sliding window over each cycle depend on the start vertex and on the order of the edges", "anchors": ["lib/algorithms/global_mincut/cactus/most_balanced_minimum_cut.h:most_balanced_minimum_cut::findCutFromCactus", "lib/algorithms/global_mincut/cactus/balanced_cut_dfs.h:balanced_cut_dfs::runDFS", "lib/algorithms/global_mincut/cactus/balanced_cut_dfs.h:balanced_cut_dfs::investigateCycle"]}
{"id": "C67", "title": "Reducing a graph before the cactus is built loses no minimum cut", "statement": "cactus_mincut::findAllMincuts with the minimum cut as start value: the loop of contractions (modified_capforest, leaf edges, Padberg-Rinaldi tests), the final noi call and setVertexLocations terminate without out-of-range access; given a correct cactus of the reduced graph the returned value is the minimum cut, the cuts of that value of the returned cactus are exactly the minimum cuts of the input graph, and each cactus vertex contains exactly the vertices positioned there.", "quantifier": "every undirected weighted graph without parallel edges, every configuration of the queue, all random start vertices and hash orders in every round, every correct recursive construction", "why_tests_cant": "whether a cut survives depends on the interplay of all rounds, on random start vertices and on the number of vertices removed per round; the set of all minimum cuts is exponential to compare", "anchors": ["lib/algorithms/global_mincut/cactus/cactus_mincut.h:cactus_mincut::findAllMincuts", "lib/algorithms/global_mincut/minimum_cut_helpers.h:minimum_cut_helpers::setVertexLocations", "lib/algorithms/global_mincut/minimum_cut_helpers.h:minimum_cut_helpers::updateCut"]}
{"id": "C68", "title": "The parallel Padberg-Rinaldi tests keep the minimum cut under every interleaving", "statement": "parallel tests::prTests12 and tests::prTests34: whatever the threads do, vertices joined by prTests12, and by prTests34 with find_all_cuts, are not separated by any minimum cut below the limit; after prTests34 without find_all_cuts some minimum cut below the limit survives; so every contraction along the concurrent union-find has the same minimum cut.", "quantifier": "every undirected graph, every limit not above a degree (any limit with find_all_cuts), any number of threads, every distribution of the vertices over them, every interleaving of their accesses to the flag arrays and every execution of the concurrent union-find, at every moment", "why_tests_cant": "the contested compare-and-swap operations and stale flags appear only in rare interleavings; a test runs a handful of schedules and mostly one thread", "anchors": ["lib/parallel/coarsening/contraction_tests.h:tests::prTests12", "lib/parallel/coarsening/contraction_tests.h:tests::prTests34", "lib/parallel/data_structure/union_find.h:union_find::Union"]}
{"id": "C69", "title": "Branch and bound hands only real solutions to findBestSolution", "statement": "Every solution that processNewProblem reads with getSolution and hands to findBestSolution is a complete assignment in which every original terminal is in its own block, so flowValue does not stop the program, and it costs at most the upper bound of the problem it came from (at most the deleted weight if no edge is left).", "quantifier": "every undirected graph with terminals, every problem reached from it, every maximum flow execution, every hash order", "why_tests_cant": "the assignment is read through several mappings from partition indices written by an earlier flow; whether they are still right depends on the branching history", "anchors": ["lib/algorithms/multicut/problem_management.h:problem_management::processNewProblem", "lib/algorithms/multicut/measurements.h:measurements::getSolution", "lib/algorithms/multicut/measurements.h:measurements::flowValue"]}
{"id": "C70", "title": "Branch and bound returns an optimal multiterminal cut", "statement": "When find_multiterminal_cut finishes with an empty queue, best_solution is a complete assignment with every terminal in its own block, its cost is the returned global_upper_bound, and no assignment is cheaper; at every moment before, a recorded solution is valid and costs no more than the bound used for pruning.", "quantifier": "every undirected graph with terminals, every order in which the workers take the problems and the main thread records the first solution, every kernel that keeps the better solutions, every maximum flow execution, local search and hash order", "why_tests_cant": "a pruned or dropped problem changes the answer only if the optimum was in it; optimality has to hold over all branching histories", "anchors": ["lib/algorithms/multicut/branch_multicut.h:branch_multicut::find_multiterminal_cut", "lib/algorithms/multicut/branch_multicut.h:branch_multicut::solveProblem", "lib/algorithms/multicut/problem_management.h:problem_management::processNewProblem", "lib/algorithms/multicut/problem_management.h:problem_management::findBestSolution"]}
{"id": "C71", "title": "Concurrent calls of findBestSolution keep a whole solution and never deadlock", "statement": "With any number of threads in findBestSolution, whenever bestsol_mutex is free and a solution is recorded, best_solution is a complete valid assignment (never a mixture of two), global_upper_bound is never below the optimum, a call that has not returned can always go on or waits for one that can, every call returns after a bounded number of steps, and when all calls have returned a solution is recorded; it is the best one reported.", "quantifier": "every graph with terminals, any number of calls started at any time with any solutions, every local search, every interleaving of the accesses to the shared variables", "why_tests_cant": "a lost update needs two threads within a few instructions of each other; sanitizers flag the race but not what it does to the answer", "anchors": ["lib/algorithms/multicut/problem_management.h:problem_management::findBestSolution", "lib/algorithms/multicut/problem_management.h:problem_management::getBestSolution"]}
{"id": "C72", "title": "The cactus built from one flow computation has exactly the minimum cuts along its blocks", "statement": "If the blocks v handed to findSTCactus are numbered along a chain of minimum cuts (source block first, sink block last, every prefix a minimum cut) and the first and last block are joined by an edge (or no minimum cut leaves them together), the call terminates normally and returns a valid graph in which the cuts of weight lambda are exactly the minimum cuts of G that do not split a block (through a map g of the vertices), no cut is smaller, each block has its own vertex, any two vertices (also the empty ones) are separated by a cut of weight lambda, every edge has weight lambda or lambda/2, no two edges are parallel, and getCurrentPosition and containedVertices agree with g.", "quantifier": "every graph, every partition into blocks, every lambda < 2^32, every cycle and path structure of the chain", "why_tests_cant": "a missing cycle or an edge in place of a cycle changes only which cuts are listed; the tests compare the value and a few counts on small graphs; correctness hinges on the order of equal keys in the bucket queue", "anchors": ["lib/algorithms/global_mincut/cactus/recursive_cactus.h:recursive_cactus::findSTCactus", "lib/data_structure/priority_queues/node_bucket_pq.h:node_bucket_pq"]}
{"id": "C73", "title": "The limited maximum flow stops early only if no smaller cut exists", "statement": "push_relabel with limited = true terminates; either it returns the limit and every cut between the source and the other terminals has at least the weight limit, or the flow left in the graph (antisymmetric, within capacities, conserved) has the returned value and a cut of the same weight exists. In particular the result is below the limit iff the minimum cut is, and then it is the minimum cut. Holds for every depth of the partial first labelling up to the number of vertices.", "quantifier": "every graph, every pair (or list) of terminals, every limit, every order in which the heap delivers vertices, all moments of the global relabelings, every depth <= n", "why_tests_cant": "the early exit and the partial labelling depend on the order of discharges; the only test of push_relabel uses limited = false", "anchors": ["lib/algorithms/flow/push_relabel.h:push_relabel::solve_max_flow_min_cut", "lib/algorithms/flow/push_relabel.h:push_relabel::global_relabeling", "lib/algorithms/flow/push_relabel.h:push_relabel::push"]}
{"id": "C74", "title": "After a deletion one flow and decrementalRebuild give the cactus of all minimum cuts", "statement": "If a maximum flow from s to t of the value c is stored in the graph, c is the minimum cut and all minimum cuts separate s and t, then decrementalRebuild returns a cactus whose cuts of weight c are exactly the minimum cuts of the graph, in which two vertices share a place iff no minimum cut separates them, and every original vertex is listed once. Together with the limited push-relabel this makes removeEdge of dynamic_mincut right for every sequence of deletions, whatever happens inside the flow algorithm, if only the cactus at the start is right.", "quantifier": "every graph, every pair s, t, every maximum flow; every sequence of removeEdge (and of addEdge as in C43); every order of discharges, every limit", "why_tests_cant": "the cactus depends on the flow that happens to be left in the graph; the dynamic tests compare only values, on a few graphs", "anchors": ["lib/algorithms/global_mincut/cactus/recursive_cactus.h:recursive_cactus::decrementalRebuild", "lib/algorithms/global_mincut/dynamic/dynamic_mincut.h:dynamic_mincut::removeEdge", "lib/algorithms/misc/strongly_connected_components.h:strongly_connected_components::strong_components"]}
{"id": "C75", "title": "recursiveCactus returns the cactus of all minimum cuts", "statement": "If every cut of a connected graph G weighs at least mincut and some cut weighs mincut, then recursiveCactus returns a graph whose proper cuts of weight mincut correspond, through the positions of the vertices, exactly to the minimum cuts of G, whatever vertices are drawn for the flow edges and in whatever order the flow algorithm works.", "quantifier": "every graph, every sequence of drawn vertices (edge_selection random), every order of discharges, every hash order", "why_tests_cant": "the tests run a handful of graphs with the default edge selection and compare the number of minimum cuts; the failing runs need a particular sequence of random vertices", "anchors": ["lib/algorithms/global_mincut/cactus/recursive_cactus.h:recursive_cactus::recursiveCactus", "lib/algorithms/global_mincut/cactus/recursive_cactus.h:recursive_cactus::internalRecursiveCactus", "lib/algorithms/global_mincut/cactus/recursive_cactus.h:recursive_cactus::mergeCactusWithComponent", "lib/algorithms/global_mincut/cactus/heavy_edges.h:heavy_edges"]}
{"id": "C76", "title": "mergeGraphs represents the cuts of both graphs", "statement": "Let two graphs over the same original vertices each represent a family of cuts: its proper cuts of weight mincut are, through the positions of the vertices, exactly the cuts of the family, no cut is lighter, any two vertices are separated by such a cut, all edges weigh mincut or half of it, there are no parallel edges, and positions and containedVertices agree. If the original vertices outside v1 in the first graph all lie at v2 in the second, and the cut around v1 is in both families or in neither, then mergeGraphs with canonizeCactus returns a graph that represents the union of the families in the same sense. The branch for three junctions is not taken, and no empty vertex with an edge of weight mincut and two junctions is left if there was none before.", "quantifier": "every number of vertices, every mincut > 0, all pairs of graphs and families with these properties, every pair of merge vertices", "why_tests_cant": "the tests only compare the number of minimum cuts of a few final cactuses; they never see a single merge, and the statement is about all pairs of cactuses and all their cuts", "anchors": ["lib/algorithms/global_mincut/cactus/graph_modification.h:graph_modification::mergeGraphs", "lib/algorithms/global_mincut/cactus/graph_modification.h:graph_modification::canonizeCactus"]}
{"id": "C77", "title": "One call of internalRecursiveCactus finds all minimum cuts", "statement": "Let G be a graph all of whose vertices hold original vertices, without parallel edges and without cuts below mincut. If every recursive call on a smaller such graph returns a graph that represents exactly its minimum cuts, then internalRecursiveCactus(G) ends without an error and returns a graph that represents exactly the minimum cuts of G (all cuts of weight mincut, none of them lost, none invented, in the sense of C76). This covers the graph of one vertex, the contraction of an edge with a flow above mincut, the graph of two vertices, and the merge of the cactus of the s-t cuts with the cactuses of all components, small or large; for both edge selections and every random choice. Not covered: a step that takes a single vertex out as a leaf (two blocks, one of the ends of the flow edge has degree mincut; see C75).", "quantifier": "every graph, every minimum cut value below 2^32, every random vertex, every order of discharges, global relabelings and hash sets", "why_tests_cant": "the tests count the minimum cuts of a few small graphs after the whole recursion; they cannot show that a single step never loses or invents a cut for any graph, flow and choice of the flow edge", "anchors": ["lib/algorithms/global_mincut/cactus/recursive_cactus.h:recursive_cactus::internalRecursiveCactus", "lib/algorithms/global_mincut/cactus/recursive_cactus.h:recursive_cactus::mergeCactusWithComponent", "lib/algorithms/global_mincut/cactus/recursive_cactus.h:recursive_cactus::maximumWeightedFlowEdge", "lib/algorithms/global_mincut/cactus/recursive_cactus.h:recursive_cactus::findFlowEdge"]}
{"id": "C78", "title": "Taking a vertex out as a leaf and putting it back loses no minimum cut", "statement": "Let G be a graph all of whose vertices hold original vertices, without parallel edges and without cuts below mincut. Suppose every recursive call on a smaller graph, in which some original vertices may have been taken out, returns a graph that holds the same original vertices and represents exactly its minimum cuts. Then internalRecursiveCactus(G) ends without an error in every case, including the step that contracts the flow edge, takes a vertex of degree mincut out and puts it back with an edge of weight mincut, and it returns a graph that represents exactly the minimum cuts of G (all, none invented).", "quantifier": "every graph, every minimum cut value below 2^32, both edge selections, every random vertex, every order of discharges, global relabelings and hash sets", "why_tests_cant": "whether the leaf step is taken depends on the random flow edge and on the number of residual blocks; tests see only a few runs and only the final number of cuts", "anchors": ["lib/algorithms/global_mincut/cactus/recursive_cactus.h:recursive_cactus::internalRecursiveCactus"]}
{"id": "C79", "title": "removeHeavyEdges and reInsertVertices lose no minimum cut and invent none", "statement": "Let G be a graph all of whose vertices hold original vertices, without parallel edges and without cuts below mincut > 0. Then removeHeavyEdges(G, mincut) ends without an error: it contracts edges heavier than mincut and deletes leaves of weight mincut. The reduced graph has at least one vertex and no cut below mincut, and it holds exactly the original vertices that the returned list of leaves does not hold. If C represents exactly the minimum cuts of the reduced graph, reInsertVertices(C, leaves, mincut) ends without an error and its result represents exactly the minimum cuts of G: every minimum cut of G is a cut of weight mincut of the result and the other way round.", "quantifier": "every graph, every minimum cut value above 0, every order of the hash sets and maps, every cactus C of the reduced graph", "why_tests_cant": "which edges are contracted and which leaves are deleted depends on the order of the hash map and on earlier contractions; a leaf put back at the wrong vertex changes the set of cuts but not their number", "anchors": ["lib/algorithms/global_mincut/cactus/heavy_edges.h:heavy_edges::removeHeavyEdges", "lib/algorithms/global_mincut/cactus/heavy_edges.h:heavy_edges::reInsertVertices"]}
{"id": "C80", "title": "findCliques returns the maximal cliques", "statement": "On a graph without parallel edges, findCliques reads no list out of range and ends; every list it returns is a maximal clique of the graph, and no two lists have the same members. Every maximal clique that contractSemiIsolatedCliques would contract is among them.", "quantifier": "every graph without parallel edges, every order that std::sort may give", "why_tests_cant": "the intersection walks three sorted lists at once and reads the place before the current one; the search is cut off by weights, so which cliques are reached depends on all weights around them; tests/clique_test.cpp only has disjoint unit-weight cliques", "anchors": ["lib/algorithms/misc/maximal_clique.h:maximal_clique::findCliques", "lib/algorithms/misc/maximal_clique.h:maximal_clique::neighborhoodIntersection", "lib/algorithms/misc/maximal_clique.h:maximal_clique::bronKerbosch"]}
{"id": "C81", "title": "Contracting semi-isolated cliques keeps the optimum of the multiterminal cut", "statement": "For every list of cliques (in particular for what findCliques returns), contractSemiIsolatedCliques does not run into exit(1) on a graph with positive edge weights, and contracting what it unites keeps deleted weight plus optimum: the multiterminal cut problem before and after the round has the same optimum, also when the cliques overlap.", "quantifier": "every graph with positive weights, every set of terminals, every list of cliques, every order of the hash sets", "why_tests_cant": "overlapping cliques are united through common members, and each clique is judged in the graph before any contraction; the criterion compares the outside weight with the lightest inside edge, so only an exchange argument over all solutions shows that it is safe", "anchors": ["lib/algorithms/misc/maximal_clique.h:maximal_clique::contractSemiIsolatedCliques"]}
{"id": "C82", "title": "The parallel contraction builds the contracted graph under every interleaving", "statement": "The parallel contractGraph accesses nothing out of range, every run can be brought to its end, and when the threads are done the result is the input contracted along the mapping: one vertex for each block, undirected, without parallel edges, and each cut weighs what the cut of the input weighs that it stands for. This holds for static graphs (contractGraphSparse with the hash table, the contested edge and the compare-and-swap counters, or contractGraphFullMesh with private arrays) and for mutable graphs that are copied, there for at least two blocks.", "quantifier": "every graph, every mapping, every distribution of the vertices to the threads, every number of threads, every interleaving of their steps, every thread that settles the contested edge, every order of the critical sections", "why_tests_cant": "whether two threads get the same place of the edge array, or an edge is counted twice or lost, depends on the interleaving; the contested edge only appears from 101 vertices on with two big blocks", "anchors": ["lib/parallel/coarsening/contract_graph.h:contraction::contractGraph", "lib/parallel/coarsening/contract_graph.h:contraction::contractGraphSparse", "lib/parallel/coarsening/contract_graph.h:contraction::contractGraphFullMesh"]}
{"id": "C83", "title": "Parallel label propagation gives a valid clustering within components under every interleaving", "statement": "The parallel propagate_labels accesses nothing out of range, every run can be brought to its end, and at every moment the label of a vertex is a vertex of its own component. After remap_cluster, findTrivialCuts and the parallel contraction, every cut of the coarser graph is a cut of the input with the same weight, and every set of vertices that no edge leaves is kept: a graph that is not connected stays so.", "quantifier": "every undirected graph, every number of threads, every distribution of the vertices to the threads in each of the two iterations, every interleaving, all random bits", "why_tests_cant": "threads read labels that others are writing, so neighbours can swap their labels and chains of labels can form that no sequential run has", "anchors": ["lib/parallel/coarsening/label_propagation.h:label_propagation::propagate_labels", "lib/parallel/coarsening/contract_graph.h:contraction::findTrivialCuts", "lib/algorithms/global_mincut/viecut.h:viecut::perform_minimum_cut"]}
{"id": "C84", "title": "The parallel findTrivialCuts splits clusters as the sequential one does", "statement": "The parallel findTrivialCuts keeps a clustering. If the sequential findTrivialCuts splits a vertex off some cluster, so does the parallel one.", "quantifier": "every graph, every clustering, every cut value, every order of the blocks", "why_tests_cant": "a heuristic that does nothing changes no result that a test could compare, only the quality of the cut that VieCut finds", "anchors": ["lib/parallel/coarsening/contract_graph.h:contraction::findTrivialCuts"]}
{"id": "C85", "title": "random_matching contracts a matching", "statement": "sparsify::random_matching returns the input graph contracted along a matching: every coarse vertex stands for one vertex or for two adjacent vertices, edges between the same two coarse vertices are merged with their weights added, every cut of the result is a cut of the input with the same weight, and at least half as many vertices remain.", "quantifier": "every undirected graph, every stream of random numbers", "why_tests_cant": "the outcome depends on the random numbers; what goes wrong needs fifty unlucky draws in a row and then a late partner", "anchors": ["lib/coarsening/sparsify.h:sparsify::random_matching", "lib/parallel/coarsening/sparsify.h:sparsify::random_matching"]}
{"id": "C86", "title": "remove_heavy_vertices returns the graph on the light vertices, and mincut_heavy prints the weight of a cut of the input", "statement": "remove_heavy_vertices returns the graph on the vertices of weighted degree below the bound, numbered in their order; indices names the new number of every vertex that is left and n for the others; every edge has weight 1, so for graphs with unit weights it is the induced subgraph. The number printed by mincut_heavy is the weight in the input graph of a cut that agrees with the cut of the smaller graph on all vertices of the latter; if that cut has two sides the printed number is not below the minimum cut.", "quantifier": "every undirected graph, every bound, every cut that the algorithm leaves on the smaller graph", "why_tests_cant": "the numbering and the continuation of the cut to the removed vertices must fit together for all graphs and all cuts", "anchors": ["lib/coarsening/sparsify.h:sparsify::remove_heavy_vertices", "app/mincut_heavy.cpp:main", "lib/tools/quality_metrics.h:quality_metrics::edge_cut"]}
{"id": "C87", "title": "bucket_pq is an addressable priority queue", "statement": "For every gain span and every history of insert, deleteMax, deleteNode, increaseKey, decreaseKey, changeKey, contains, getKey, size, empty, maxElement and maxValue, bucket_pq answers as a finite map from nodes to keys with a maximum, as long as each call meets its precondition: a node that is deleted, re-keyed or asked for its key is queued, an inserted node is not, keys are at most the span, the queue is not empty for the maximum.", "quantifier": "every gain span, all node ids and keys, every history of calls", "why_tests_cant": "the index of the hash map and the places in the buckets must agree after every history", "anchors": ["lib/data_structure/priority_queues/bucket_pq.h:bucket_pq"]}
{"id": "C88", "title": "flow_graph pairs up edges and reverse edges and keeps the capacities", "statement": "After any calls of new_edge (no loops) and setEdgeFlow on a flow_graph, the reverse edge of every edge leads back from its target to its source and has that edge as its own reverse edge; the capacity from u to v is the sum of the capacities given for (u, v); getCapacity(u) is the sum of those given for u; number_of_edges is twice the number of new_edge calls and is the number of edges there are. createFlowGraph makes the flow graph whose capacities are the edge weights.", "quantifier": "every number of vertices, every sequence of calls, every undirected graph for createFlowGraph", "why_tests_cant": "places of reverse edges are computed from the lengths of two lists while these grow; all interleavings of the calls have to be right", "anchors": ["lib/data_structure/flow_graph.h:flow_graph::new_edge", "lib/data_structure/flow_graph.h:flow_graph::getReverseEdge", "lib/data_structure/flow_graph.h:flow_graph::setEdgeFlow", "lib/io/graph_io.h:graph_io::createFlowGraph"]}
{"id": "C89", "title": "one_ks contracts the graph along drawn edges without making cuts smaller", "statement": "On every undirected graph with at least two vertices and for every sequence of random numbers, if sparsify::one_ks returns, the result is the graph contracted along the components of a set of its own edges, has exactly n - min(floor(n * factor), n - 2) vertices, and every cut of it is a cut of the graph with the same weight, so that its minimum cut is not below that of the graph. On a connected graph whatever has been drawn so far can be continued to a finished run.", "quantifier": "every undirected graph with at least two vertices, every factor, every sequence of random numbers", "why_tests_cant": "the outcome depends on the draws; all sequences and all graphs are meant", "anchors": ["lib/coarsening/sparsify.h:sparsify::one_ks", "lib/algorithms/global_mincut/ks_minimum_cut.h:ks_minimum_cut::sample_contractible_weighted", "app/mincut_contract.cpp:main"]}
{"id": "C90", "title": "make_graph_weighted gives both directions of an edge one weight in the wanted range", "statement": "On every undirected graph without loops, parallel edges and isolated vertices and for all random numbers, the graph that make_graph_weighted writes has the same edges; both directions of every edge have the same weight, which is a number between min and max, multiplied by multi exactly if the edge was picked at one of its ends; every vertex has a picked edge.", "quantifier": "every such graph, all random numbers in range, every factor", "why_tests_cant": "the weight of the second direction is looked up in a map filled while other vertices were processed; needs all graphs and all draws", "anchors": ["app/make_graph_weighted.cpp:main", "lib/parallel/coarsening/contract_graph.h:contraction::get_uint64_from_pair"]}
{"id": "C91", "title": "gnp_torus makes a symmetric graph whose blocks are cut off by weight 4 * cut", "statement": "For at least two blocks per dimension and all random numbers, the graph that gnp_torus writes has blocks * blocks * n vertices, all edges lead to existing vertices, both directions of an edge have the same weight, and the edges between any block and the rest weigh exactly 4 * cut; so its minimum cut is at most 4 * cut. Each block is joined to its neighbours in row and column, with wrap around, by weight cut each (twice that where both neighbours coincide) and to no other block, and every vertex has weight at least 4 * cut + 1 inside its block, loops included.", "quantifier": "every number of blocks per dimension from two on, every block size, every cut value, all random numbers in range", "why_tests_cant": "has to hold for all parameters and draws, also for two blocks per dimension, where left and right neighbour coincide", "anchors": ["app/gnp_torus.cpp:main"]}
{"id": "C92", "title": "temporal_largest_cc keeps a largest connected component", "statement": "For every list of temporal edges between n vertices, temporal_largest_cc finishes and writes exactly the edges of one connected component (with respect to all edges of the list), in the order of the input and with unchanged weights and times; no component has more vertices; the k vertices of the component are numbered 1 to k in their old order; the written edges join all numbers from 1 to k.", "quantifier": "every number of vertices and every list of temporal edges with ends in range, also with loops, parallel edges and deletions", "why_tests_cant": "has to hold for every edge list, including ties between components and loops", "anchors": ["app/temporal_largest_cc.cpp:main"]}
