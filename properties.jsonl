{"id": "C01", "title": "Partition stays a partition under every history of moves", "statement": "A Partition built from the defaults, from a valid cluster_list or from a valid node_to_cluster_dict, and then changed by any sequence of move_node (to an existing cluster) and remove_empty_clusters calls, always has pairwise disjoint clusters that cover exactly the nodes 0..num_nodes-1, and node_to_cluster_dict[n] == c holds exactly when n is in cluster_list[c].", "quantifier": "for every number of nodes, every valid starting partition and every finite sequence of operations", "why_tests_cant": "The invariant ranges over unboundedly long operation histories and all partitions; tests only replay a few.", "anchors": ["src/flowstab/network_clustering.py: Partition.__init__, move_node, remove_empty_clusters, iter_cluster_node_index"]}
{"id": "C02", "title": "Moving a node changes only that node; removing empty clusters changes nothing observable", "statement": "move_node(n, c) puts n in cluster c and leaves every other node with the same companions as before; remove_empty_clusters preserves the grouping (two nodes are together afterwards exactly when they were together before), keeps the relative order of clusters and leaves no empty cluster.", "quantifier": "for every valid partition, node and target cluster", "why_tests_cant": "A frame property over all partitions and all nodes that were not touched.", "anchors": ["src/flowstab/network_clustering.py: Partition.move_node, remove_empty_clusters"]}
{"id": "C03", "title": "cluster_list and node_to_cluster_dict are interchangeable inputs", "statement": "Building a Partition from the node_to_cluster_dict of another Partition gives back the same cluster_list (as sets, in the same order) and the same dictionary, and the other way round.", "quantifier": "for every valid partition of any number of nodes", "why_tests_cant": "Round trip over all partitions.", "anchors": ["src/flowstab/network_clustering.py: Partition.__init__, remove_empty_clusters"]}
{"id": "C04", "title": "check_integrity accepts exactly the partitions of the node set", "statement": "Partition(num_nodes, cluster_list, check_integrity=True) raises unless the clusters are pairwise disjoint and their union is the full node set range(num_nodes).", "quantifier": "for every num_nodes and every list of sets", "why_tests_cant": "The accepted set is infinite; a test cannot show that nothing outside it is accepted.", "anchors": ["src/flowstab/network_clustering.py: Partition.check_integrity"]}
{"id": "C05", "title": "The indicator matrix encodes the partition, dense and sparse alike", "statement": "get_indicator() has a 1 at (n, c) exactly when node n is in cluster c and 0 elsewhere; each row sums to 1, column c sums to the size of cluster c, and sparse=True gives the same matrix.", "quantifier": "for every valid partition", "why_tests_cant": "All partitions, all entries.", "anchors": ["src/flowstab/network_clustering.py: Partition.get_indicator"]}
{"id": "C06", "title": "A failing move_node leaves the partition unchanged", "statement": "If move_node raises because the target cluster does not exist, the Partition object is as it was before the call.", "quantifier": "for every partition, node and non-existing target", "why_tests_cant": "Exception safety quantifies over all object states at the time of the failure.", "anchors": ["src/flowstab/network_clustering.py: Partition.move_node"]}
{"id": "C07", "title": "The move gain used by Louvain is the exact change in stability", "statement": "For a node k in cluster c_i and any other cluster c_f, the leave gain plus the join gain computed for the move equals compute_stability after move_node(k, c_f) minus compute_stability before.", "quantifier": "for every (not necessarily symmetric) autocovariance matrix S, every partition, node and target cluster", "why_tests_cant": "An algebraic identity over all real matrices and partitions.", "anchors": ["src/flowstab/network_clustering.py: Clustering._compute_delta_stab_moveto, _compute_delta_stab_moveout, compute_stability", "src/flowstab/_cython_fast_funcs.pyx: sum_Sto, sum_Sout"]}
{"id": "C08", "title": "One Louvain sweep never lowers stability and reports its exact gain", "statement": "A run of the node-moving phase returns a total gain that equals the stability of the partition it leaves behind minus the stability of the partition it started from; that gain is never negative, and the result is a valid partition without empty clusters.", "quantifier": "for every S, every starting partition, every neighbour structure, every random visiting order, every threshold and every iteration cap", "why_tests_cant": "The visiting order is random and the number of sweeps unbounded; tests sample a few seeds.", "anchors": ["src/flowstab/network_clustering.py: Clustering._louvain_move_nodes, _potential_new_clusters"]}
{"id": "C09", "title": "Aggregating clusters into meta nodes preserves stability", "statement": "Replacing each cluster by a single meta node gives a clustering problem in which every partition of the meta nodes has exactly the stability of the partition of original nodes it stands for.", "quantifier": "for every S, every partition and every partition of its clusters", "why_tests_cant": "Identity over all matrices and all nested pairs of partitions.", "anchors": ["src/flowstab/network_clustering.py: Clustering._aggregate_clusters, BaseClustering._aggregate_clusters, _get_updated_partition"]}
{"id": "C10", "title": "find_louvain_clustering never returns something worse than the singletons it starts from", "statement": "Started from the default partition, find_louvain_clustering leaves a valid partition of all original nodes without empty clusters whose stability is at least the stability of the all-singletons partition (when S is not declared zero).", "quantifier": "for every S, every random seed (visiting orders of every sweep of every level), every threshold >= 0 and iteration cap", "why_tests_cant": "End-to-end invariant through an unbounded number of aggregation levels and random orders.", "anchors": ["src/flowstab/network_clustering.py: BaseClustering.find_louvain_clustering, _update_original_partition, _get_updated_partition"]}
{"id": "C11", "title": "find_louvain_clustering may be restarted from any partition", "statement": "Started from a user-supplied partition, or called a second time on the same Clustering, find_louvain_clustering returns a partition whose stability is not lower than that of the partition it started from.", "quantifier": "for every S and every starting partition", "why_tests_cant": "Needs all starting partitions; existing tests only start from singletons.", "anchors": ["src/flowstab/network_clustering.py: BaseClustering.find_louvain_clustering, _get_updated_partition, Clustering.find_louvain_clustering"]}
{"id": "C12", "title": "Louvain terminates within its iteration caps", "statement": "find_louvain_clustering performs at most n_meta_iter_max aggregation levels and at most n_sub_iter_max sweeps per level, whatever the data and the random order.", "quantifier": "for every S, caps, thresholds and visiting orders", "why_tests_cant": "Termination for all inputs.", "anchors": ["src/flowstab/network_clustering.py: BaseClustering.find_louvain_clustering, Clustering._louvain_move_nodes"]}
{"id": "C13", "title": "The clustered autocovariance is a faithful summary", "statement": "The entries of the clustered autocovariance matrix sum to the total of S restricted to the pairs of clusters, the stability is its trace, and the stability equals the sum of S over all ordered pairs of nodes lying in the same cluster; it does not depend on the order of the clusters.", "quantifier": "for every S and every partition", "why_tests_cant": "Identity over all matrices and partitions.", "anchors": ["src/flowstab/network_clustering.py: BaseClustering._compute_clustered_autocov, Clustering._compute_clustered_autocov, compute_stability"]}
{"id": "C14", "title": "Incremental update of the bipartite clustered autocovariance is exact", "statement": "After taking a node out of its source/target cluster pair and putting it into another pair, the incrementally updated matrix equals the clustered autocovariance recomputed from scratch for the new pair of partitions.", "quantifier": "for every S, every pair of source and target partitions, every node and every pair of target clusters", "why_tests_cant": "Identity over all matrices and partition pairs, including all coincidences of old and new clusters.", "anchors": ["src/flowstab/network_clustering.py: BaseClustering._compute_new_R_moveout, _compute_new_R_moveto, _compute_clustered_autocov"]}
{"id": "C15", "title": "The autocovariance of a stochastic flow has zero row and column sums", "statement": "If T is row-stochastic and p1 sums to one, the autocovariance S built from them has all row sums and all column sums equal to zero, so the one-cluster partition has stability zero.", "quantifier": "for every stochastic T and distribution p1 of any size", "why_tests_cant": "Identity over all stochastic matrices.", "anchors": ["src/flowstab/network_clustering.py: BaseClustering.__init__, _compute_S", "src/flowstab/_cython_fast_funcs.pyx: compute_S"]}
{"id": "C16", "title": "norm_var_information is a normalised metric on partitions", "statement": "norm_var_information of two partitions of the same N >= 2 nodes is symmetric, lies in [0, 1], is zero exactly when the partitions are equal, and satisfies the triangle inequality.", "quantifier": "for all partitions (triples of partitions) of any number of nodes, listed in any order", "why_tests_cant": "Metric axioms quantify over all pairs and triples.", "anchors": ["src/flowstab/network_clustering.py: norm_var_information", "src/flowstab/_cython_fast_funcs.pyx: cython_nvi"]}
{"id": "C17", "title": "The early exit and the sorted-merge intersection do not change the result", "statement": "norm_var_information stops scanning once the intersections found account for the whole cluster, and the vector version intersects sorted arrays by merging; both give the same value as the full double sum over set intersections.", "quantifier": "for all pairs of partitions", "why_tests_cant": "Equivalence of two algorithms for all inputs.", "anchors": ["src/flowstab/network_clustering.py: norm_var_information", "src/flowstab/_cython_fast_funcs.pyx: cython_nvi, nvi_vectors, sorted_vectors_intersection_length"]}
{"id": "C18", "title": "norm_mutual_information is symmetric and lies in [0, 1]", "statement": "norm_mutual_information of two partitions of the same nodes is symmetric in its arguments, lies in [0, 1] and equals 1 for two equal non-trivial partitions.", "quantifier": "for all pairs of partitions that are not both trivial", "why_tests_cant": "Quantifies over all pairs.", "anchors": ["src/flowstab/network_clustering.py: norm_mutual_information", "src/flowstab/_cython_fast_funcs.pyx: cython_nmi"]}
{"id": "C19", "title": "jaccard_distance returns the Jaccard distance", "statement": "jaccard_distance(c1, c2) returns the Jaccard distance of the two clusterings as documented.", "quantifier": "for all pairs of clusterings", "why_tests_cant": "No test calls it; the claim is about every pair.", "anchors": ["src/flowstab/network_clustering.py: jaccard_distance"]}
{"id": "C20", "title": "sort_clusters only reorders", "statement": "sort_clusters returns every cluster of the input exactly once, and terminates, whatever the classes to sort by, for every threshold ratio up to 1.", "quantifier": "for every non-empty list of non-empty clusters, all classes and every way ties are broken", "why_tests_cant": "Permutation and termination for all inputs and tie-breaks.", "anchors": ["src/flowstab/network_clustering.py: sort_clusters"]}
{"id": "C21", "title": "SparseStochMat arithmetic agrees with the matrices it represents", "statement": "For two SparseStochMat of the same size, the full matrix of A + B, A - B, A * x, A.sub_diag(d), A.add_diag(d) and A.transpose() is the corresponding operation on the full matrices.", "quantifier": "for every size, every diagonal values, every set of stored rows/columns (overlapping, disjoint, empty) and every CSR layout", "why_tests_cant": "Homomorphism over all sparse layouts.", "anchors": ["src/flowstab/sparse_stoch_mat.py: SparseStochMat.__add__, __sub__, __mul__, sub_diag, add_diag, transpose, to_full_mat", "src/flowstab/_cython_sparse_stoch.pyx: stoch_mat_add, stoch_mat_sub"]}
{"id": "C22", "title": "SparseStochMat product agrees with the full product", "statement": "The full matrix of A @ B is the product of the full matrices of A and B, also when the stored index sets are disjoint, and also when the rest of the diagonal is not one.", "quantifier": "for every pair of representations of the same size", "why_tests_cant": "Identity over all representations.", "anchors": ["src/flowstab/sparse_stoch_mat.py: SparseStochMat.__matmul__"]}
{"id": "C23", "title": "Full to SparseStochMat and back is lossless", "statement": "SparseStochMat.from_full_csr_matrix(T).to_full_mat() is T; converting a SparseStochMat to its full matrix and back keeps the represented matrix.", "quantifier": "for every square CSR matrix whose rows outside the stored set are diagonal", "why_tests_cant": "Round trip over all layouts.", "anchors": ["src/flowstab/sparse_stoch_mat.py: SparseStochMat.from_full_csr_matrix, to_full_mat", "src/flowstab/_cython_sparse_stoch.pyx: sparse_stoch_from_full_csr, rebuild_nnz_rowcol"]}
{"id": "C24", "title": "Row normalisation gives the requested row sums", "statement": "After inplace_csr_row_normalize every row whose sum was non-zero sums to row_sum, rows that sum to zero are untouched, proportions inside a row are preserved, and normalising twice is the same as once.", "quantifier": "for every CSR matrix and every non-zero row_sum", "why_tests_cant": "All matrices.", "anchors": ["src/flowstab/sparse_stoch_mat.py: inplace_csr_row_normalize, SparseStochMat.inplace_row_normalize", "src/flowstab/_cython_sparse_stoch.pyx: inplace_csr_row_normalize"]}
{"id": "C25", "title": "The stored indices may be given in any order", "statement": "SparseStochMat built from a small matrix and its list of stored row/column indices represents the full matrix in which row i of the small matrix is row nz_rowcols[i], whatever the order of nz_rowcols.", "quantifier": "for every list of distinct indices", "why_tests_cant": "All orders of the index list.", "anchors": ["src/flowstab/sparse_stoch_mat.py: SparseStochMat.__init__"]}
{"id": "C26", "title": "set_to_zeroes removes only negligible entries", "statement": "set_to_zeroes(T, tol) changes an entry only if its magnitude is at most tol times the largest magnitude, and it sets such entries to zero.", "quantifier": "for every matrix and every tolerance in [0, 1)", "why_tests_cant": "All matrices, including those with negative entries.", "anchors": ["src/flowstab/temporal_network.py: set_to_zeroes", "src/flowstab/sparse_stoch_mat.py: SparseStochMat.set_to_zeroes"]}
{"id": "C27", "title": "The sparse accumulator adds up exactly what was scattered", "statement": "Accumulating a row through the sparse accumulator yields, for each column, the sum of the values scattered to it since the last reset, and lists each touched column exactly once, for any sequence of increasing rows.", "quantifier": "for every sequence of reset/scatter calls with increasing row numbers", "why_tests_cant": "History property over unbounded call sequences.", "anchors": ["src/flowstab/sparse_accumulator.cpp: SPA", "src/flowstab/_cython_subst.py: SPA"]}
{"id": "C28", "title": "SparseAutocovMat queries agree with the matrix it represents", "statement": "get_element, get_submat_sum, get_row_idx_sum and get_col_idx_sum return the entry and the sums of toarray() over the given index lists.", "quantifier": "for every PT (any CSR layout), any p1, p2 (vectors or scalars) and any index lists", "why_tests_cant": "All matrices and index lists.", "anchors": ["src/flowstab/sparse_stoch_mat.py: SparseAutocovMat.get_element, get_submat_sum, get_row_idx_sum, get_col_idx_sum, toarray", "src/flowstab/_cython_sparse_stoch.pyx: get_submat_sum"]}
{"id": "C29", "title": "Sparse move gains equal the dense ones", "statement": "The stability gains of moving a node into or out of a cluster computed from a SparseAutocovMat equal those computed from the dense matrix toarray().", "quantifier": "for every PT, p1, p2, node and cluster", "why_tests_cant": "All sparsity patterns, including empty rows.", "anchors": ["src/flowstab/sparse_stoch_mat.py: SparseAutocovMat._compute_delta_S_moveto, _compute_delta_S_moveout", "src/flowstab/_cython_sparse_stoch.pyx: compute_delta_PT_moveto, compute_delta_PT_moveout, compute_delta_S_moveto, compute_delta_S_moveout"]}
{"id": "C30", "title": "Aggregating a SparseAutocovMat sums its blocks", "statement": "aggregate(idx_list) represents the matrix whose (a, b) entry is the sum of the represented matrix over idx_list[a] x idx_list[b], whichever of the two internal aggregation algorithms is selected.", "quantifier": "for every partition of the indices and every representation", "why_tests_cant": "Two algorithms, all inputs.", "anchors": ["src/flowstab/sparse_stoch_mat.py: SparseAutocovMat.aggregate", "src/flowstab/_cython_sparse_stoch.pyx: aggregate_csr_mat, aggregate_csr_mat_2"]}
{"id": "C31", "title": "is_all_zeros is true only for the zero matrix", "statement": "is_all_zeros returns True exactly when the represented matrix is the zero matrix.", "quantifier": "for every representation", "why_tests_cant": "All representations, including entries that are not stored.", "anchors": ["src/flowstab/sparse_stoch_mat.py: SparseAutocovMat.is_all_zeros", "src/flowstab/network_clustering.py: SparseClustering._check_if_S_is_zero"]}
{"id": "C32", "title": "Node relabelling is a faithful renaming", "statement": "A ContTempNetwork built from lists of sources and targets with arbitrary labels uses node ids 0..num_nodes-1, each id is used, the mapping is one-to-one and order preserving, and translating the ids of the events table back through node_to_label_dict gives the original labels.", "quantifier": "for every list of events and every labels", "why_tests_cant": "All label sets.", "anchors": ["src/flowstab/temporal_network.py: ContTempNetwork.__init__"]}
{"id": "C33", "title": "The time grid is the sorted set of all event times", "statement": "times is strictly increasing and contains exactly the starting and ending times of the events; _get_closest_time(t) returns the last grid time not after t (or the first grid time when t precedes them all) with its index.", "quantifier": "for every event list and every t", "why_tests_cant": "All event lists.", "anchors": ["src/flowstab/temporal_network.py: ContTempNetwork._compute_time_grid, _get_closest_time"]}
{"id": "C34", "title": "The k-th Laplacian describes exactly the contacts active between two consecutive times", "statement": "If no two events of the same pair of nodes overlap in time, laplacians[k] is the random-walk Laplacian of the graph whose edges are the pairs with an event active during [times[k], times[k+1]), for any requested window t_start, t_stop; there are exactly as many Laplacians as intervals in the window.", "quantifier": "for every list of events of positive duration between two different nodes without same-pair overlaps, and every window", "why_tests_cant": "Invariant along an unbounded event sequence and all windows.", "anchors": ["src/flowstab/temporal_network.py: ContTempNetwork.compute_laplacian_matrices"]}
{"id": "C35", "title": "Overlapping events of the same pair keep the contact alive", "statement": "When two events of the same pair of nodes overlap, the pair stays connected in the Laplacians until the last of the two events ends.", "quantifier": "for every event list", "why_tests_cant": "All interleavings of starts and ends.", "anchors": ["src/flowstab/temporal_network.py: ContTempNetwork.compute_laplacian_matrices"]}
{"id": "C36", "title": "Laplacians generate stochastic walks", "statement": "Every row of every computed Laplacian sums to zero, diagonal entries are 0 or 1, off-diagonal entries are in [-1, 0], so I - L is row-stochastic with a self-loop at isolated nodes.", "quantifier": "for every event list and every window", "why_tests_cant": "All event lists, including nodes without contacts and self-contacts.", "anchors": ["src/flowstab/temporal_network.py: ContTempNetwork.compute_laplacian_matrices"]}
{"id": "C37", "title": "Merging overlapping events preserves contact periods", "statement": "Merging overlapping events ends with no two overlapping events of the same pair, and for every pair and every time the pair is in contact after merging exactly when it was in contact before.", "quantifier": "for every event list", "why_tests_cant": "All interval configurations, including nested events and chains of overlaps.", "anchors": ["src/flowstab/temporal_network.py: ContTempNetwork._merge_overlapping_events, ContTempNetwork.__init__"]}
{"id": "C38", "title": "The static adjacency matrix accumulates contact durations", "statement": "compute_static_adjacency_matrix(start, end) is symmetric and its (i, j) entry is the total duration of the contacts between i and j inside the window; it is additive over adjacent windows.", "quantifier": "for every event list and every window", "why_tests_cant": "All event lists and windows.", "anchors": ["src/flowstab/temporal_network.py: ContTempNetwork.compute_static_adjacency_matrix"]}
{"id": "C39", "title": "Transition matrices are the ordered products of the inter-event ones and stay stochastic", "statement": "T[lamda][k] is the product of inter_T[lamda][0..k] in time order (reversed order for reverse_time), and is row-stochastic when every factor is.", "quantifier": "for every list of stochastic factors of any length", "why_tests_cant": "Unbounded products.", "anchors": ["src/flowstab/temporal_network.py: ContTempNetwork.compute_transition_matrices"]}
{"id": "C40", "title": "Recomputing after changing the window uses the new window", "statement": "After compute_laplacian_matrices is called again with another window, compute_inter_transition_matrices(lamda) yields the matrices of the new window.", "quantifier": "for every sequence of compute calls", "why_tests_cant": "History property: depends on the calls made before.", "anchors": ["src/flowstab/temporal_network.py: ContTempNetwork.compute_inter_transition_matrices, compute_laplacian_matrices, compute_transition_matrices", "src/flowstab/flow_stability.py: FlowStability.t_start"]}
{"id": "C41", "title": "Delta-encoded inter-transition matrices reload to the originals", "statement": "Saving the inter transition matrices as an initial matrix plus differences and loading them again gives back the original sequence.", "quantifier": "for every sequence of matrices", "why_tests_cant": "Round trip over all sequences.", "anchors": ["src/flowstab/temporal_network.py: ContTempNetwork.save_inter_T, load_inter_T, _compute_delta_trans_mat"]}
{"id": "C42", "title": "Saving does not change the network in memory", "statement": "save_inter_T only writes; the matrices held by the network are the same before and after.", "quantifier": "for every network and option values", "why_tests_cant": "All states of the network.", "anchors": ["src/flowstab/temporal_network.py: ContTempNetwork.save_inter_T, set_to_zeroes"]}
{"id": "C43", "title": "The linear approximation is stochastic and continuous", "statement": "lin_approx_trans_matrix(T, t) is row-stochastic for every t >= 0, equals the identity at t = 0, T at t = 1 and the stationary matrix from t = t_s on, and is continuous at the switching points.", "quantifier": "for every stochastic T, stationary Pi, t >= 0 and t_s > 1", "why_tests_cant": "All reals t, all matrices.", "anchors": ["src/flowstab/temporal_network.py: lin_approx_trans_matrix"]}
{"id": "C44", "title": "The stationary transition matrix is stationary", "statement": "compute_stationary_transition(T) is row-stochastic, every one of its rows is a stationary distribution of the random walk, and it gives zero weight outside the connected component of the row.", "quantifier": "for every undirected unweighted graph with walk T", "why_tests_cant": "All graphs.", "anchors": ["src/flowstab/temporal_network.py: compute_stationary_transition"]}
{"id": "C45", "title": "Instantaneous events last until the next event time", "statement": "In a ContTempInstNetwork each event ends at the next distinct starting time (the last ones one unit later), the time grid has as many intervals as distinct starting times, and laplacians[k] only reflects the events starting at times[k].", "quantifier": "for every list of events (between two different nodes for the Laplacians)", "why_tests_cant": "All event lists.", "anchors": ["src/flowstab/temporal_network.py: ContTempInstNetwork.__init__, compute_laplacian_matrices"]}
{"id": "C46", "title": "The integral autocovariance is a covariance", "statement": "The integral autocovariance of a flow is symmetric, positive semidefinite and has zero row sums, for the forward as well as the time-reversed direction.", "quantifier": "for every sequence of stochastic inter transition matrices, every time grid and every positive initial distribution", "why_tests_cant": "Unbounded sequences of matrices.", "anchors": ["src/flowstab/network_clustering.py: FlowIntegralClustering.__init__, _compute_T_list, _compute_integral"]}
{"id": "C47", "title": "Each integral is attached to the right end time", "statement": "The k-th entry of the list of integrals is the time average from the start of the grid up to the (k+1)-th time of integral_time_grid.", "quantifier": "for every integral_time_grid", "why_tests_cant": "All grids, including ones not starting at the first time or with close values.", "anchors": ["src/flowstab/network_clustering.py: FlowIntegralClustering.__init__, _compute_integral, find_louvain_clustering"]}
{"id": "C48", "title": "The synthetic simulation records well-formed, non-overlapping contacts", "statement": "Every recorded event connects two different individuals, starts no later than it ends, events are recorded in order of their ending time, and two recorded events with the same source and the same target do not overlap.", "quantifier": "for every population, every sequence of random draws and every end time", "why_tests_cant": "All random outcomes and unbounded run lengths.", "anchors": ["src/flowstab/synth_temp_network.py: SynthTempNetwork.run, get_new_partner, put_event"]}
{"id": "C49", "title": "No recorded synthetic event ends after t_end", "statement": "SynthTempNetwork.run only records events whose ending time is at most t_end.", "quantifier": "for every sequence of random draws and every t_end", "why_tests_cant": "All random outcomes.", "anchors": ["src/flowstab/synth_temp_network.py: SynthTempNetwork.run"]}
{"id": "C50", "title": "Steps only run when their prerequisites hold, and refusing changes nothing", "statement": "In every history of property assignments and method calls on a state-tracked object, the body of a registered method runs only when the current state is at least its minimal state and all properties required for that state are set; a refused call returns None and leaves the object unchanged; a step that raises does not advance the state.", "quantifier": "for every state-tracked class and every finite history of calls", "why_tests_cant": "Histories are unbounded and classes arbitrary.", "anchors": ["src/flowstab/state_tracking.py: StateMeta.register, StateMeta.init_state, State"]}
{"id": "C51", "title": "Changing an input sends the analysis back", "statement": "Assigning a property never advances the state and leaves it at most at the property's state, so after changing an input every later step must be run again before its successors are accepted; the state only moves forward by the successful run of a step, to that step's next state.", "quantifier": "for every finite history of calls", "why_tests_cant": "Histories are unbounded.", "anchors": ["src/flowstab/state_tracking.py: StateMeta.register", "src/flowstab/flow_stability.py: FlowStability"]}
{"id": "C52", "title": "The advertised next step is runnable", "statement": "When help/state.next reports no missing parameter and names a method, calling that method is accepted.", "quantifier": "for every history of calls", "why_tests_cant": "All reachable states.", "anchors": ["src/flowstab/state_tracking.py: State.next, State.missing_parameters, StateMeta.init_state"]}
{"id": "C53", "title": "An analysis in a single time direction can be completed", "statement": "With time_direction = 1 or -1 the documented sequence of steps ends in the FINAL state with Louvain clusters for that direction.", "quantifier": "for every history of calls with a single time direction", "why_tests_cant": "A reachability claim over all histories.", "anchors": ["src/flowstab/flow_stability.py: FlowStability.set_flow_clustering, find_louvain_clustering, flow_clustering_forward, flow_clustering_backward"]}
{"id": "C54", "title": "Leaving time_scale at its default works", "statement": "With time_scale=None (documented as: a default value is used) the inter transition matrices can be computed.", "quantifier": "for every history of calls that never sets a time scale", "why_tests_cant": "A reachability claim over all histories.", "anchors": ["src/flowstab/flow_stability.py: FlowStability.time_scale, set_time_scale, compute_inter_transition_matrices"]}
{"id": "C55", "title": "Matrix exponentials assembled from components equal the whole", "statement": "Computing the matrix exponential separately on each connected component, or on the rows and columns with entries only, and reassembling gives the exponential of the whole matrix; the assembly does not depend on how components are numbered or on which of them are computed in parallel.", "quantifier": "for every matrix and every decomposition into closed components", "why_tests_cant": "All matrices and decompositions.", "anchors": ["src/flowstab/temporal_network.py: compute_subspace_expm, remove_nnz_rowcol, numpy_rebuild_nnz_rowcol, sparse_lapl_expm", "src/flowstab/parallel_expm.py: compute_subspace_expm_parallel"]}
{"id": "C56", "title": "Clustering accepts transition matrices with zero rows", "statement": "A transition matrix with zero rows is documented as valid input of Clustering; find_louvain_clustering started from the default partition returns a partition for it rather than raising.", "quantifier": "for every non-negative T whose rows sum to one or to zero, every S, seed, threshold and cap", "why_tests_cant": "Depends on which nodes end up together at an intermediate level.", "anchors": ["src/flowstab/network_clustering.py: BaseClustering.__init__, Clustering._aggregate_clusters, find_louvain_clustering"]}
{"id": "C57", "title": "A network given to the constructor can be analysed", "statement": "A FlowStability object that was given its temporal network in the constructor or by assignment (both documented ways to provide it) can compute the Laplacian matrices without loading the network again through set_temporal_network.", "quantifier": "for every history of calls that does not use set_temporal_network", "why_tests_cant": "A reachability claim over all histories.", "anchors": ["src/flowstab/flow_stability.py: FlowStability.__init__, temporal_network, set_temporal_network, compute_laplacian_matrices"]}
{"id": "C58", "title": "SparseStochMat row normalisation obeys the same rules", "statement": "After A.inplace_row_normalize(r) with r non-zero, every row of the represented matrix whose sum was non-zero sums to r with its proportions kept, and rows that summed to zero are unchanged.", "quantifier": "for every SparseStochMat, including every value of the diagonal outside the stored rows", "why_tests_cant": "All representations and diagonal values.", "anchors": ["src/flowstab/sparse_stoch_mat.py: SparseStochMat.inplace_row_normalize"]}
{"id": "C59", "title": "The pure Python fallback computes what the compiled kernels compute", "statement": "When cython is not installed, the drop-in replacements for row normalisation and for the conversion of a full matrix give the same arrays as the compiled kernels.", "quantifier": "for every CSR matrix, row sum and index list", "why_tests_cant": "All inputs, including row sums of zero and stored zeros.", "anchors": ["src/flowstab/_cython_subst.py: inplace_csr_row_normalize, sparse_stoch_from_full_csr", "src/flowstab/_cython_sparse_stoch.pyx: inplace_csr_row_normalize, sparse_stoch_from_full_csr"]}
{"id": "C60", "title": "Conversion from a full matrix works for every diagonal value", "statement": "SparseStochMat.from_full_csr_matrix(T, nz_rowcols, diag_val) represents T for every diag_val for which the rows and columns outside nz_rowcols are diag_val times the identity, and writes only inside its buffers.", "quantifier": "for every square CSR matrix and every diag_val, zero included", "why_tests_cant": "Buffer sizes depend on the number of stored elements of every row.", "anchors": ["src/flowstab/sparse_stoch_mat.py: SparseStochMat.from_full_csr_matrix", "src/flowstab/_cython_sparse_stoch.pyx: sparse_stoch_from_full_csr"]}
{"id": "C61", "title": "from_T represents the autocovariance of the transition matrix", "statement": "from_T(T, p1, p2) represents diag(p1) T - p1^t p2, with p1 uniform and p2 = p1 T by default; for a transition matrix, a probability vector p1 and the default p2 its rows and columns sum to zero.", "quantifier": "for every square CSR matrix T and vectors p1, p2 given or not", "why_tests_cant": "All sizes and sparsity patterns.", "anchors": ["src/flowstab/sparse_stoch_mat.py: SparseAutocovMat.from_T, inplace_diag_matmul_csr"]}
{"id": "C62", "title": "from_T_forward represents the forward autocovariance", "statement": "from_T_forward(T, p1) represents diag(p1) T diag(1/p2) T^t diag(p1) - p1^t p1 with p2 = p1 T, where states that are never reached contribute nothing. The matrix is symmetric as declared to the constructor, its rows sum to zero, and no cluster has a negative stability.", "quantifier": "for every transition matrix and probability vector, including those with unreachable states", "why_tests_cant": "The sign is a statement about a quadratic form over all clusters.", "anchors": ["src/flowstab/sparse_stoch_mat.py: SparseAutocovMat.from_T_forward, inplace_csr_matmul_diag, inplace_diag_matmul_csr"]}
{"id": "C63", "title": "In-place products with a diagonal matrix", "statement": "inplace_diag_matmul_csr(A, d) turns A into diag(d) A and inplace_csr_matmul_diag(A, d) into A diag(d), without changing which elements are stored.", "quantifier": "for every CSR matrix and vector of matching size", "why_tests_cant": "All sizes and sparsity patterns.", "anchors": ["src/flowstab/sparse_stoch_mat.py: inplace_diag_matmul_csr, inplace_csr_matmul_diag"]}
{"id": "C64", "title": "Sparse stability equals the stability of the represented matrix", "statement": "SparseClustering.compute_stability(partition) is the sum of the represented autocovariance over all pairs of nodes that are in the same cluster.", "quantifier": "for every SparseAutocovMat and every valid partition", "why_tests_cant": "All sizes, sparsity patterns and partitions.", "anchors": ["src/flowstab/network_clustering.py: SparseClustering._compute_clustered_autocov, BaseClustering.compute_stability"]}
{"id": "C65", "title": "The sparse Louvain search never ends worse than singletons", "statement": "SparseClustering.find_louvain_clustering completes without exception with a valid partition whose stability is at least that of the singleton partition.", "quantifier": "for every SparseAutocovMat with non-negative PT without empty rows, every visiting order, threshold and iteration cap", "why_tests_cant": "Visiting orders are random and the search runs over unboundedly many levels.", "anchors": ["src/flowstab/network_clustering.py: BaseClustering.find_louvain_clustering, SparseClustering._louvain_move_nodes, SparseClustering._aggregate_clusters", "src/flowstab/sparse_stoch_mat.py: SparseAutocovMat.is_all_zeros"]}
{"id": "C66", "title": "Sparse and dense clustering agree", "statement": "For the same transition matrix, initial probabilities and random orders SparseClustering and Clustering return the same partition after the same number of levels.", "quantifier": "for every transition matrix with positive stored elements, all-positive probabilities, every visiting order", "why_tests_cant": "Agreement over all levels and visiting orders cannot be tested exhaustively.", "anchors": ["src/flowstab/network_clustering.py: SparseClustering, Clustering, BaseClustering.find_louvain_clustering"]}
{"id": "C67", "title": "All implementations of the variation of information agree", "statement": "nvi_mat and nvi_parallel return the same value as norm_var_information for clusterings given as lists of node arrays.", "quantifier": "for all pairs of partitions and every initial content of freshly allocated memory", "why_tests_cant": "A buffer that is not initialised usually happens to be zero in tests.", "anchors": ["src/flowstab/_cython_sparse_stoch.pyx: cython_nvi, nvi_vectors, nvi_mat, nvi_parallel"]}
{"id": "C68", "title": "The form in which a clustering is given does not matter", "statement": "norm_var_information and norm_mutual_information return the same value whether a clustering is given as a list of sets, as a dictionary from nodes to cluster numbers or as a Partition.", "quantifier": "for all clusterings in each of the forms, with any cluster numbers", "why_tests_cant": "Quantifies over all dictionaries, including those with gaps in the cluster numbers.", "anchors": ["src/flowstab/network_clustering.py: norm_var_information, norm_mutual_information, Partition"]}
{"id": "C69", "title": "The average variation of information measures agreement of a sample", "statement": "avg_norm_var_information of a list of clusterings lies in [0, 1], and when all pairs are used it is zero exactly when all clusterings are equal.", "quantifier": "for every list of at least two partitions of the same nodes and every choice of samples", "why_tests_cant": "Quantifies over all lists of partitions and all random selections of pairs.", "anchors": ["src/flowstab/network_clustering.py: avg_norm_var_information"]}
{"id": "C70", "title": "sort_clusters matches the model list", "statement": "Sorting a reordering of a list of disjoint clusters against that list returns the list itself, and in general the first cluster returned is one that is most similar (Jaccard) to the first class.", "quantifier": "for every list of disjoint non-empty clusters, every reordering, every threshold ratio in (0, 1] and every way ties are broken", "why_tests_cant": "All reorderings and tie-breaks.", "anchors": ["src/flowstab/network_clustering.py: sort_clusters"]}
{"id": "C71", "title": "Events of zero duration do not create lasting contacts", "statement": "A pair is connected in laplacians[k] only if one of its events is active at times[k].", "quantifier": "for every list of events, including events that end when they start, and every order the sort of the time grid may give to rows with equal time and event", "why_tests_cant": "The effect depends on how an unstable sort orders equal rows.", "anchors": ["src/flowstab/temporal_network.py: ContTempNetwork._compute_time_grid, compute_laplacian_matrices"]}
{"id": "C72", "title": "Keeping the original index does not change the merged network", "statement": "With merge_overlapping_events=True the contacts of the network are the same whether reset_event_table_index is True or False.", "quantifier": "for every list of events of positive duration", "why_tests_cant": "All orders in which events may be listed.", "anchors": ["src/flowstab/temporal_network.py: ContTempNetwork.__init__, _merge_overlapping_events"]}
{"id": "C73", "title": "Keeping the original index does not change the Laplacians", "statement": "With reset_event_table_index=False the Laplacians still describe exactly the contacts active between two consecutive times.", "quantifier": "for every list of events of positive duration without same-pair overlaps, in every order", "why_tests_cant": "All orders in which events may be listed.", "anchors": ["src/flowstab/temporal_network.py: ContTempNetwork.__init__, _compute_time_grid, compute_laplacian_matrices"]}
{"id": "C74", "title": "The durations column is the length of the events", "statement": "In events_table durations equals ending_times minus starting_times for every row.", "quantifier": "for every list of events, merged or not", "why_tests_cant": "All interval configurations.", "anchors": ["src/flowstab/temporal_network.py: ContTempNetwork.__init__, _merge_overlapping_events"]}
{"id": "C75", "title": "Merging keeps the first contact of a pair", "statement": "If s is the first time two nodes are in contact, they are still in contact at s after merging overlapping events.", "quantifier": "for every list of events of positive duration", "why_tests_cant": "All interval configurations, including several events of a pair that start together.", "anchors": ["src/flowstab/temporal_network.py: ContTempNetwork._merge_overlapping_events"]}
{"id": "C76", "title": "The order in which events are listed does not matter", "statement": "Two ContTempNetworks built from reorderings of the same events have the same nodes, the same times and the same Laplacians for every window.", "quantifier": "for every list of events of positive duration between two different nodes without same-pair overlaps, and every reordering", "why_tests_cant": "All reorderings.", "anchors": ["src/flowstab/temporal_network.py: ContTempNetwork.__init__, compute_laplacian_matrices"]}
{"id": "C77", "title": "compute_transition_matrices honours its options", "statement": "After compute_transition_matrices(lamda, save_intermediate, reverse_time) the matrices held for lamda are the products asked for by that call.", "quantifier": "for every history of calls", "why_tests_cant": "All histories of calls; the cache hides the effect of a second call.", "anchors": ["src/flowstab/temporal_network.py: ContTempNetwork.compute_transition_matrices"]}
{"id": "C78", "title": "Computing products leaves the inter-event matrices alone", "statement": "compute_transition_matrices does not change inter_T, also with a tolerance tol.", "quantifier": "for every state and every tol", "why_tests_cant": "In-place operations on shared matrices.", "anchors": ["src/flowstab/temporal_network.py: ContTempNetwork.compute_transition_matrices, set_to_zeroes"]}
{"id": "C79", "title": "Products trimmed with a tolerance stay stochastic", "statement": "compute_transition_matrices with tol smaller than 1/num_nodes gives row-stochastic products, and leaves row-stochastic inter-event matrices.", "quantifier": "for every list of stochastic matrices and every 0 <= tol < 1/n", "why_tests_cant": "All matrices and tolerances.", "anchors": ["src/flowstab/temporal_network.py: ContTempNetwork.compute_transition_matrices, set_to_zeroes", "src/flowstab/sparse_stoch_mat.py: inplace_csr_row_normalize"]}
{"id": "C80", "title": "Linear approximations use the stationary matrices of the current window", "statement": "compute_lin_inter_transition_matrices(lamda, t_s) interpolates between the identity, the walk and the stationary matrix of the Laplacians of the current window.", "quantifier": "for every history of calls and every lamda, t_s not used before", "why_tests_cant": "All histories of calls.", "anchors": ["src/flowstab/temporal_network.py: ContTempNetwork.compute_lin_inter_transition_matrices, _compute_stationary_transition"]}
{"id": "C81", "title": "Linear approximations exist for every window", "statement": "compute_lin_inter_transition_matrices does not raise an exception, whatever the window and with or without use_sparse_stoch.", "quantifier": "for every network, window, lamda >= 0 and t_s > 1", "why_tests_cant": "All windows, including those without steps.", "anchors": ["src/flowstab/temporal_network.py: ContTempNetwork.compute_lin_inter_transition_matrices"]}
{"id": "C82", "title": "Linear transition matrices are stochastic products", "statement": "compute_lin_transition_matrices gives the row-stochastic products, in the order asked for, of the linear approximations of the window.", "quantifier": "for every network, window with steps, lamda >= 0 and t_s", "why_tests_cant": "All networks and windows.", "anchors": ["src/flowstab/temporal_network.py: ContTempNetwork.compute_lin_inter_transition_matrices, compute_lin_transition_matrices"]}
{"id": "C83", "title": "The default rate is the inverse of the median step", "statement": "Without lamda the rate is positive; at least half of the steps between consecutive times are at most 1/lamda and at least half are at least 1/lamda.", "quantifier": "for every increasing list of at least two times", "why_tests_cant": "All lists of times, of even and odd length.", "anchors": ["src/flowstab/temporal_network.py: ContTempNetwork.compute_inter_transition_matrices"]}
{"id": "C84", "title": "Rounding changes flow integrals little", "statement": "With a tolerance rtol >= 0 every entry of an integral is at most the exact time average and smaller by at most 2 m rtol p_i p_j / min p after m steps.", "quantifier": "for every list of stochastic matrices, every positive distribution, every tolerance, with and without MKL", "why_tests_cant": "All matrices; the error bound holds for every entry and number of steps.", "anchors": ["src/flowstab/network_clustering.py: FlowIntegralClustering._compute_integral, compute_integral_I"]}
{"id": "C85", "title": "Which integrals are stored", "statement": "I_list holds, in order, one time average for each time of the flow that is, for some time of integral_time_grid, the last one not after it; without a grid, the average over the whole flow.", "quantifier": "for every time list, grid, direction, distribution and list of stochastic matrices, without rounding", "why_tests_cant": "All grids, including times outside and between those of the flow.", "anchors": ["src/flowstab/network_clustering.py: FlowIntegralClustering.__init__"]}
{"id": "C86", "title": "The unit and the origin of time do not matter", "statement": "Replacing every time t of time_list and integral_time_grid by c t + d with c > 0 leaves the integrals unchanged.", "quantifier": "for every c > 0 and d, every flow, without rounding", "why_tests_cant": "All rescalings of all flows.", "anchors": ["src/flowstab/network_clustering.py: FlowIntegralClustering.__init__"]}
{"id": "C87", "title": "The backward flow is the forward flow of the mirrored data", "statement": "The integrals with reverse_time=True are those of the forward flow with the inter-event matrices reversed and every time t replaced by d - t.", "quantifier": "for every list of stochastic matrices, time list, grid and d, without rounding", "why_tests_cant": "All flows and grids.", "anchors": ["src/flowstab/network_clustering.py: FlowIntegralClustering.__init__"]}
{"id": "C88", "title": "T_list and T_inter_list give the same integrals", "statement": "Passing the products of the inter-event matrices as T_list, dense or sparse, gives the integrals obtained with the matrices themselves as T_inter_list.", "quantifier": "for every list of stochastic matrices, direction, time list and grid, without rounding", "why_tests_cant": "All lists of matrices.", "anchors": ["src/flowstab/network_clustering.py: FlowIntegralClustering.__init__", "src/flowstab/temporal_network.py: ContTempNetwork.compute_transition_matrices"]}
{"id": "C89", "title": "A window of time is analysed as asked", "statement": "If Laplacians are computed for a window from t_start to t_stop, set_flow_clustering gives the average over the steps of that window.", "quantifier": "for every network, window, direction and initial distribution", "why_tests_cant": "All windows.", "anchors": ["src/flowstab/flow_stability.py: FlowStability.set_flow_clustering", "src/flowstab/network_clustering.py: FlowIntegralClustering.__init__"]}
{"id": "C90", "title": "A longer simulation extends a shorter one", "statement": "With the same random numbers and a later t_end the recorded events are those of the shorter simulation followed by events that end at or after its t_end; nothing that ended before t_end is missing.", "quantifier": "for every population, every sequence of random draws and all pairs of end times", "why_tests_cant": "All random outcomes; compares two runs.", "anchors": ["src/flowstab/synth_temp_network.py: SynthTempNetwork.run"]}
{"id": "C91", "title": "Two individuals have at most one contact at a time", "statement": "Recorded events between the same two individuals, in either direction, do not overlap.", "quantifier": "for every population and every sequence of random draws", "why_tests_cant": "All random outcomes.", "anchors": ["src/flowstab/synth_temp_network.py: SynthTempNetwork.get_new_partner, run"]}
{"id": "C92", "title": "run can be called again", "statement": "After a second call of run the recorded events are still well formed and in order of their ending time.", "quantifier": "for every population and every sequence of random draws", "why_tests_cant": "All random outcomes; state left over from the first run.", "anchors": ["src/flowstab/synth_temp_network.py: SynthTempNetwork.run, initialize_events"]}
{"id": "C93", "title": "Simulated contacts respect the groups", "statement": "With 'random_uniform_within_group' every event connects two individuals of the same group; with 'block_probs' and 'block_probs_mod' the groups of source and target have a positive probability when the event starts.", "quantifier": "for every population, listed in any order, every matrix of probabilities and every sequence of random draws", "why_tests_cant": "All random outcomes and orders of the list of individuals.", "anchors": ["src/flowstab/synth_temp_network.py: SynthTempNetwork.__init__, get_new_partner"]}
{"id": "C94", "title": "The simulation raises no exception", "statement": "For a population accepted by the constructor, with positive scales and non-negative probabilities, run raises no exception; individuals of a group with no possible partners have no interactions.", "quantifier": "for every population, every method and every sequence of random draws", "why_tests_cant": "All random outcomes.", "anchors": ["src/flowstab/synth_temp_network.py: SynthTempNetwork.__init__, get_new_partner, run"]}
{"id": "C95", "title": "The simulation ends", "statement": "If activations of an individual are at least delta > 0 apart, run returns after finitely many events, and every search for a partner ends.", "quantifier": "for every population and method, every sequence of draws in which every choice recurs", "why_tests_cant": "Unbounded runs and rejection sampling.", "anchors": ["src/flowstab/synth_temp_network.py: SynthTempNetwork.run, get_new_partner"]}
{"id": "C96", "title": "States are saved every dt", "statement": "Successive keys of saved_states are at least dt apart.", "quantifier": "for every population, every sequence of random draws and every dt", "why_tests_cant": "All random outcomes.", "anchors": ["src/flowstab/synth_temp_network.py: SynthTempNetwork.run"]}
{"id": "C97", "title": "Saved states agree with the recorded events", "statement": "all_states[t] has an entry 1 for every recorded event that starts no later than t and ends after t.", "quantifier": "for every population and every sequence of random draws", "why_tests_cant": "All random outcomes, including events at the same time.", "anchors": ["src/flowstab/synth_temp_network.py: SynthTempNetwork.run"]}
{"id": "C98", "title": "Static clustering of an undirected network is at equilibrium", "statement": "For an undirected network static_clustering returns p1 = p2 = degrees over total degree, and the transition matrix of the walk, of its powers and of its exponential keep p and are in detailed balance with it, so that S is symmetric with row sums 0; rows of T sum to 1 (nodes without edges stay in place).", "quantifier": "for all symmetric non-negative adjacency matrices with an edge, all times and all options", "why_tests_cant": "All matrices, including isolated nodes.", "anchors": ["src/flowstab/network_clustering.py: static_clustering"]}
{"id": "C99", "title": "Linearised static stability at time 1 is the modularity", "statement": "For an undirected network the stability of any partition in the linearised clustering at time t is (1-t)(1 - sum of squared shares) + t modularity; at t=1, and for one step of the discrete walk, it is Newman's modularity.", "quantifier": "for all symmetric non-negative adjacency matrices, all partitions and all times", "why_tests_cant": "An identity over all matrices and partitions.", "anchors": ["src/flowstab/network_clustering.py: static_clustering"]}
{"id": "C100", "title": "Discrete-time static clustering uses powers", "statement": "With discrete_time_rw and an integer time t, T is the t-th power of the transition matrix of the walk.", "quantifier": "for all adjacency matrices and integer times", "why_tests_cant": "Depends on the type of the time; all powers.", "anchors": ["src/flowstab/network_clustering.py: static_clustering"]}
{"id": "C101", "title": "Static clustering of a directed network uses its stationary density", "statement": "For a strongly connected directed network, static_clustering(directed=True) returns its stationary density: positive, summing to 1, unchanged by T, and the only such density.", "quantifier": "for all strongly connected non-negative adjacency matrices", "why_tests_cant": "Needs a Perron-Frobenius argument over all matrices.", "anchors": ["src/flowstab/network_clustering.py: static_clustering"]}
{"id": "C102", "title": "Nodes that are not connected are never clustered together", "statement": "If Louvain is started from singletons, two nodes of one cluster of the result are connected by a path of edges of T, whatever their directions.", "quantifier": "for all transition matrices, initial densities, visiting orders and options", "why_tests_cant": "Quantifies over all matrices and all random orders.", "anchors": ["src/flowstab/network_clustering.py: Clustering.find_louvain_clustering, _check_if_S_is_zero"]}
{"id": "C103", "title": "run_multi_louvain: every result belongs to its seed", "statement": "run_multi_louvain returns one result per repetition: a partition of all nodes with its stability, not worse than singletons unless S is zero, and a new clustering with the reported seed finds it again.", "quantifier": "for all clusterings, numbers of repetitions, options and random generators", "why_tests_cant": "All random orders; a test sees one seed.", "anchors": ["src/flowstab/network_clustering.py: run_multi_louvain"]}
{"id": "C104", "title": "Parallel clustering finds what serial clustering finds (dense)", "statement": "compute_parallel_clustering of a Clustering returns the clusters, stabilities and seeds that run_multi_louvain returns for the same seeds and limits.", "quantifier": "for all dense clusterings, seeds and limits", "why_tests_cant": "Needs processes and shared memory to test; equality over all matrices.", "anchors": ["src/flowstab/parallel_clustering.py: compute_parallel_clustering, _init_sub_worker, _compute_sym_clustering_fct"]}
{"id": "C105", "title": "Parallel clustering finds what serial clustering finds (sparse)", "statement": "compute_parallel_clustering of a SparseClustering returns the clusters, stabilities and seeds that run_multi_louvain returns for the same seeds and limits.", "quantifier": "for all sparse clusterings, seeds and limits", "why_tests_cant": "Needs processes and shared memory to test; equality over all matrices.", "anchors": ["src/flowstab/parallel_clustering.py: compute_parallel_clustering, _init_sub_worker_sparse, _compute_sym_sparse_clustering_fct"]}
{"id": "C106", "title": "find_louvain_clustering(k) clusters the k-th flow integral", "statement": "For every stored integral k, FlowIntegralClustering.find_louvain_clustering(k) finishes with a partition of all nodes for I_list[k], not worse than singletons, and uses the transition matrix of the steps over which I_list[k] is averaged.", "quantifier": "for all lists of transition matrices, times, grids and directions of time", "why_tests_cant": "Depends on the position of every grid time; all matrices.", "anchors": ["src/flowstab/network_clustering.py: FlowIntegralClustering.find_louvain_clustering"]}
{"id": "C107", "title": "Repeated calls of find_louvain_clustering", "statement": "A call of FlowIntegralClustering.find_louvain_clustering(k) gives what it gives on a new object, and a clustering reported as computed can be read.", "quantifier": "for all histories of calls and options", "why_tests_cant": "Quantifies over histories, including calls that raised an exception.", "anchors": ["src/flowstab/network_clustering.py: FlowIntegralClustering.find_louvain_clustering"]}
{"id": "C108", "title": "compute_parallel_nvi returns one distance per sampled pair", "statement": "compute_parallel_nvi returns min(num_varinf_samples, n(n-1)/2) values, each the normalised variation of information of a pair of different clusterings, no pair twice, all pairs by default; their mean is that of avg_norm_var_information.", "quantifier": "for all lists of clusterings of the same nodes and all random samples", "why_tests_cant": "All random samples of pairs.", "anchors": ["src/flowstab/parallel_clustering.py: compute_parallel_nvi", "src/flowstab/network_clustering.py: avg_norm_var_information"]}
{"id": "C109", "title": "A network saved and loaded again is the same network", "statement": "For every ContTempNetwork, also after merging overlapping events and after matrices or times were computed, load(save(net)) succeeds and has the same attributes with the same values.", "quantifier": "for all networks, histories of computed attributes and file names", "why_tests_cant": "Covers every attribute and every state of the object.", "anchors": ["src/flowstab/temporal_network.py: ContTempNetwork.save, ContTempNetwork.load, ContTempNetwork.__init__"]}
{"id": "C110", "title": "Choosing the attributes to save and to load", "statement": "With matrices_list and attributes_list given to save or load, loading succeeds, the attributes chosen both times are restored and the others are as in a network made from the saved table.", "quantifier": "for all networks and all pairs of lists", "why_tests_cant": "All combinations of lists.", "anchors": ["src/flowstab/temporal_network.py: ContTempNetwork.save, ContTempNetwork.load"]}
{"id": "C111", "title": "Networks saved under different names stay apart", "statement": "Saving a network under a name does not change what is loaded under a different name.", "quantifier": "for all networks and all pairs of different file names", "why_tests_cant": "All file names, including dots in names and directories.", "anchors": ["src/flowstab/temporal_network.py: ContTempNetwork.save, ContTempNetwork.load"]}
{"id": "C112", "title": "A file of inter-event matrices is found again", "statement": "What save_inter_T has just written under a name is what load_inter_T reads under this name, compressed or not; an existing file is kept unless it is to be replaced.", "quantifier": "for all names, formats, options and contents of the directory", "why_tests_cant": "All file names and all other files present.", "anchors": ["src/flowstab/temporal_network.py: ContTempNetwork.save_inter_T, ContTempNetwork.load_inter_T"]}
{"id": "C113", "title": "T and T_lin saved and loaded again", "statement": "save_T followed by load_T, and save_T_lin followed by load_T_lin, restore every chosen matrix: of the same kind, exactly without rounding, and with entries either kept or of magnitude at most tol and dropped with rounding.", "quantifier": "for all dictionaries of csr and sparse stochastic matrices, choices of lamda, tolerances and formats", "why_tests_cant": "All matrices and combinations of kinds.", "anchors": ["src/flowstab/temporal_network.py: ContTempNetwork.save_T, ContTempNetwork.load_T, ContTempNetwork.save_T_lin, ContTempNetwork.load_T_lin", "src/flowstab/sparse_stoch_mat.py: SparseStochMat.to_dict"]}
{"id": "C114", "title": "Inter-event matrices of the linear approximation saved and loaded again", "statement": "save_inter_T_lin succeeds whenever inter_T_lin was computed, and load_inter_T_lin restores every matrix of every lamda and stationary time that was to be saved.", "quantifier": "for all dictionaries of matrices, all options and all histories of differences", "why_tests_cant": "All histories of computations before saving.", "anchors": ["src/flowstab/temporal_network.py: ContTempNetwork.save_inter_T_lin, ContTempNetwork.load_inter_T_lin, ContTempNetwork._compute_delta_trans_mat_lin"]}
{"id": "C115", "title": "Every saved integral is the average covariance of the flow", "statement": "Whatever tasks were run with whatever options, and wherever they were interrupted between two writes, every integral file from interval a to interval b holds the duration of the flow from a to b and the upper triangle of the time average of the covariances of its transitions from a, forward or backward; a task started without files from its interval writes the integrals to all its stops.", "quantifier": "for all intervals of stochastic matrices, grids, options, and histories of interrupted runs", "why_tests_cant": "All histories of interrupted and restarted runs.", "anchors": ["src/flowstab/scripts/run_cov_integrals.py: worker, main", "src/flowstab/temporal_network.py: lin_approx_trans_matrix"]}
{"id": "C116", "title": "Saved integrals stay covariances when transitions are rounded", "statement": "With rounding of the transition matrices to a tolerance below 1/n, every saved integral is still a time average of covariances of stochastic matrices: symmetric, positive semidefinite, with zero row sums.", "quantifier": "for all intervals, tolerances below 1/n, grids, options and histories", "why_tests_cant": "All tolerances and histories.", "anchors": ["src/flowstab/scripts/run_cov_integrals.py: worker", "src/flowstab/temporal_network.py: set_to_zeroes"]}
{"id": "C117", "title": "A restarted task completes its integrals", "statement": "A task that was interrupted at any point completes its integrals when it is run again with the same options, and the files are those of an uninterrupted run.", "quantifier": "for all intervals, grids, options and points of interruption", "why_tests_cant": "Every crash point, including one in the middle of a write.", "anchors": ["src/flowstab/scripts/run_cov_integrals.py: worker"]}
{"id": "C118", "title": "The tasks integrate every requested pair of intervals once", "statement": "The tasks of a run cover every pair of grid points that the options ask for, forward and backward, no other pair, and none twice.", "quantifier": "for all grids of at least two points, selections, directions and options", "why_tests_cant": "All grids and combinations of options.", "anchors": ["src/flowstab/scripts/run_cov_integrals.py: main"]}
{"id": "C119", "title": "The grid has the requested number of steps", "statement": "With num_points the flow is integrated on a grid of this number of steps from the first to the last interval.", "quantifier": "for all positive numbers of points and intervals", "why_tests_cant": "All numbers of points and intervals.", "anchors": ["src/flowstab/scripts/run_cov_integrals.py: main"]}
{"id": "C120", "title": "Tasks that run at the same time do not share files", "statement": "What a task writes and returns depends only on files of its own start and direction, it writes no others, and no two tasks of a run have files in common, so the tasks may run in any order or in parallel.", "quantifier": "for all grids, options, pairs of tasks and contents of the directory", "why_tests_cant": "All interleavings of parallel tasks.", "anchors": ["src/flowstab/scripts/run_cov_integrals.py: main, worker"]}
{"id": "C121", "title": "A grid listed by the user", "statement": "With --int_list the integrals between the listed intervals are right, in whatever order these are listed.", "quantifier": "for all lists of different intervals", "why_tests_cant": "All orders of the list.", "anchors": ["src/flowstab/scripts/run_cov_integrals.py: main, worker"]}
{"id": "C122", "title": "A saved integral is loaded as it was integrated", "statement": "Loading the file of an integral that run_cov_integrals.py wrote, after any history of interrupted and restarted runs, never fails and gives the average of the covariances over the interval, with any number of normalisation iterations.", "quantifier": "for all flows, grids, histories of runs, tolerances below 1/n and numbers of iterations", "why_tests_cant": "All flows and crash points, across two scripts.", "anchors": ["src/flowstab/scripts/run_clusterings.py: load_autocov_int", "src/flowstab/scripts/run_cov_integrals.py: worker"]}
{"id": "C123", "title": "Normalised integrals sum to zero", "statement": "After at least one normalisation iteration the loaded autocovariance matrix is symmetric and its entries sum to zero, for every integral with non-negative entries in which every node appears.", "quantifier": "for all sizes, integrals and positive numbers of iterations", "why_tests_cant": "All matrices.", "anchors": ["src/flowstab/scripts/run_clusterings.py: load_autocov_int"]}
{"id": "C124", "title": "Runs of the clustering script give partitions of the nodes", "statement": "Every repetition of the clustering gives non-empty clusters that partition all the nodes; with --separate_comps no cluster joins two connected components, and no exception is raised.", "quantifier": "for all integrals, seeds, visiting orders, orders of sets, with or without a pool", "why_tests_cant": "All networks, component structures and random orders.", "anchors": ["src/flowstab/scripts/run_clusterings.py: _compute_clustering_fct, _compute_sym_list_clustering_fct, load_autocov_int"]}
{"id": "C125", "title": "Stabilities reported with --separate_comps", "statement": "The stability reported for a run with --separate_comps is the stability of its partition.", "quantifier": "for all integrals, components and runs", "why_tests_cant": "All component structures.", "anchors": ["src/flowstab/scripts/run_clusterings.py: _compute_sym_list_clustering_fct"]}
{"id": "C126", "title": "The best run is the best partition", "statement": "The clusters saved as best are those of a run whose partition has the largest stability among all runs, with each of the options for components; stabilities and seeds are saved in the order of the runs, with the averages over the runs.", "quantifier": "for all integrals, seeds, options and orders", "why_tests_cant": "All sets of runs.", "anchors": ["src/flowstab/scripts/run_clusterings.py: worker"]}
{"id": "C127", "title": "The nodes outside of the largest component stay apart", "statement": "With --only_largest_comp the clusters are those of a largest connected component, the other nodes stand as one node and share no cluster with it, and the stability is that of the partition of all nodes.", "quantifier": "for all integrals, labels of components and runs", "why_tests_cant": "All component structures and random orders.", "anchors": ["src/flowstab/scripts/run_clusterings.py: load_autocov_int, _compute_clustering_fct"]}
{"id": "C128", "title": "Equal partitions are counted together", "statement": "clust_counter has one entry for each different partition found, whatever the order of clusters and nodes, with the number of runs that found it.", "quantifier": "for all lists of partitions", "why_tests_cant": "All orders of clusters and nodes.", "anchors": ["src/flowstab/scripts/run_clusterings.py: worker"]}
{"id": "C129", "title": "--nproc_clustering does not change the results", "statement": "The clusters, stabilities and seeds are the same with and without a pool, for each of the options for components.", "quantifier": "for all integrals, seeds and orders", "why_tests_cant": "All networks; two constructions of the same matrix.", "anchors": ["src/flowstab/scripts/run_clusterings.py: worker, _init_sub_worker, _compute_clustering_fct"]}
{"id": "C130", "title": "A restarted clustering saves its results", "statement": "After any history of interrupted runs, a run that is not interrupted leaves saved results; results that are saved are not overwritten.", "quantifier": "for all histories of runs and points of interruption", "why_tests_cant": "Every crash point.", "anchors": ["src/flowstab/scripts/run_clusterings.py: worker"]}
{"id": "C131", "title": "--num_slices gives that number of slices", "statement": "The slices of run_laplacians_transmats.py are num_slices intervals of equal length that start at t0, end at tend and follow each other.", "quantifier": "for all periods and numbers of slices, in double precision", "why_tests_cant": "Accumulated rounding depends on the period; all pairs of bounds.", "anchors": ["src/flowstab/scripts/run_laplacians_transmats.py: time_slices"]}
{"id": "C132", "title": "Every slice is in one batch", "statement": "Over all batch numbers, every slice that is not to be skipped is computed exactly once, under its own index.", "quantifier": "for all lists of slices, numbers of batches and intervals to skip", "why_tests_cant": "All sizes and remainders.", "anchors": ["src/flowstab/scripts/run_laplacians_transmats.py: batch", "src/flowstab/scripts/run_laplacians_transmats.py: main"]}
{"id": "C133", "title": "The batches share the work", "statement": "The sizes of two batches differ by at most one slice.", "quantifier": "for all lists of slices and numbers of batches", "why_tests_cant": "All sizes and remainders.", "anchors": ["src/flowstab/scripts/run_laplacians_transmats.py: batch"]}
{"id": "C134", "title": "Laplacians of slices are those of the period", "statement": "The Laplacians of consecutive slices put one after the other are the Laplacians of the whole period, whatever the bounds; no step is lost or repeated at a bound.", "quantifier": "for all event lists, time grids and increasing bounds", "why_tests_cant": "All networks and bounds, including bounds between events and slices without events.", "anchors": ["src/flowstab/scripts/run_laplacians_transmats.py: worker", "src/flowstab/temporal_network.py: compute_laplacian_matrices"]}
{"id": "C135", "title": "Transition matrices of slices multiply to that of the period", "statement": "Without rounding, for networks in which events of a pair do not overlap, the product of the transition matrices of consecutive slices, in the order of time, or in the reverse order when computed backward, is the transition matrix of the period.", "quantifier": "for all such event lists, rates, increasing bounds and directions", "why_tests_cant": "All networks and bounds, including slices without events.", "anchors": ["src/flowstab/scripts/run_laplacians_transmats.py: worker", "src/flowstab/temporal_network.py: compute_transition_matrices"]}
{"id": "C136", "title": "Static adjacency matrices of slices add up", "statement": "The static adjacency matrices saved for consecutive slices sum to the static adjacency matrix of the period.", "quantifier": "for all event lists and increasing bounds", "why_tests_cant": "All networks and bounds.", "anchors": ["src/flowstab/scripts/run_laplacians_transmats.py: worker", "src/flowstab/temporal_network.py: compute_static_adjacency_matrix"]}
{"id": "C137", "title": "The matrices asked for are written", "statement": "A run of run_laplacians_transmats.py that is not interrupted leaves, for every slice and waiting time, the files its options ask for.", "quantifier": "for all options and waiting times", "why_tests_cant": "All combinations of options.", "anchors": ["src/flowstab/scripts/run_laplacians_transmats.py: worker"]}
{"id": "C138", "title": "Stationary matrices of the used rows and columns", "statement": "sparse_stationary_trans gives the stationary matrix of the whole network: within each connected component every row is the distribution proportional to the numbers of non-zero entries of the rows; nodes that are not used keep to themselves.", "quantifier": "for all square matrices in csr format without repeated entries", "why_tests_cant": "All matrices, with any used rows and columns and any components.", "anchors": ["src/flowstab/temporal_network.py: sparse_stationary_trans", "src/flowstab/temporal_network.py: compute_stationary_transition"]}
{"id": "C139", "title": "Linear approximation of the used rows and columns", "statement": "sparse_lin_approx gives the interpolation of the whole matrices: from the identity at time 0 to T at time 1 and to the stationary matrix at time t_s, whether the stationary matrix is computed or given, and the used rows and columns are found or given; a negative time is refused. Steps of temporal networks computed this way are those of the whole matrices.", "quantifier": "for all transition matrices, times and stationarity times", "why_tests_cant": "All matrices and times.", "anchors": ["src/flowstab/temporal_network.py: sparse_lin_approx", "src/flowstab/temporal_network.py: compute_lin_inter_transition_matrices"]}
{"id": "C140", "title": "Outer products of sparse vectors", "statement": "sparse_outer returns the product of the transposed vector with the vector, or its upper triangle.", "quantifier": "for all sparse vectors", "why_tests_cant": "All sets of stored entries, including none and one.", "anchors": ["src/flowstab/sparse_stoch_mat.py: sparse_outer"]}
{"id": "C141", "title": "csc_row_normalize makes rows sum to one", "statement": "After csc_row_normalize, rows whose sum is not zero sum to one and are proportional to what they were, the others are unchanged, and the result is that of the compiled kernel.", "quantifier": "for all matrices", "why_tests_cant": "All patterns and values.", "anchors": ["src/flowstab/temporal_network.py: csc_row_normalize"]}
{"id": "C142", "title": "numpy_rebuild_nnz_rowcol puts rows and columns back", "statement": "numpy_rebuild_nnz_rowcol puts the small matrix into the rows and columns that are not listed, in order, with ones on the rest of the diagonal, as the compiled version does.", "quantifier": "for all small matrices and all lists of distinct indices in range, in any order", "why_tests_cant": "All positions of the removed rows.", "anchors": ["src/flowstab/temporal_network.py: numpy_rebuild_nnz_rowcol"]}
{"id": "C143", "title": "Exponentials computed column by column", "statement": "compute_parallel_expm returns the exponential; with a threshold, entries smaller than the largest of their column over the ratio are deleted and no others; with a ratio of at least the number of columns, the normalised rows are distributions proportional to what is left.", "quantifier": "for all matrices whose exponential is stochastic and all positive ratios", "why_tests_cant": "All matrices and ratios.", "anchors": ["src/flowstab/parallel_expm.py: compute_parallel_expm", "src/flowstab/parallel_expm.py: _worker"]}
{"id": "C144", "title": "Stacking sparse columns", "statement": "_stack_sparse_cols returns the matrix that has the given columns.", "quantifier": "for all lists of N columns of N entries", "why_tests_cant": "All columns, including empty ones.", "anchors": ["src/flowstab/parallel_expm.py: _stack_sparse_cols"]}
{"id": "C145", "title": "The substitute row normalisation is the compiled one", "statement": "inplace_csr_row_normalize of _cython_sparse_stoch_subst.py changes a matrix as the compiled function does.", "quantifier": "for all matrices and row sums that are not zero", "why_tests_cant": "All matrices.", "anchors": ["src/flowstab/_cython_sparse_stoch_subst.py: inplace_csr_row_normalize"]}
{"id": "C146", "title": "The optimal flow is optimal", "statement": "_find_optimal_flow returns the largest total of entries over all assignments of source to target clusters, the assignment that attains it and its inverse.", "quantifier": "for all clustered autocovariances, square or not", "why_tests_cant": "All matrices and numbers of clusters.", "anchors": ["src/flowstab/network_clustering.py: _find_optimal_flow"]}
{"id": "C147", "title": "Connectedness of two subsets", "statement": "_compute_subsets_connectedness returns the sum of the autocovariances between nodes of the first and of the second subset.", "quantifier": "for all lists of nodes", "why_tests_cant": "All subsets, including empty ones.", "anchors": ["src/flowstab/network_clustering.py: _compute_subsets_connectedness"]}
{"id": "C148", "title": "set_to_ones changes entries close to one only", "statement": "set_to_ones replaces the entries within the tolerance of one by one and leaves the others.", "quantifier": "for all matrices without repeated entries and tolerances below one", "why_tests_cant": "All values and tolerances.", "anchors": ["src/flowstab/temporal_network.py: set_to_ones"]}
{"id": "C149", "title": "Multiples of the identity", "statement": "create_diag returns the multiple of the identity; multiplying by it from either side multiplies every entry.", "quantifier": "for all sizes, factors and sparse stochastic matrices", "why_tests_cant": "All sizes and factors, including zero.", "anchors": ["src/flowstab/sparse_stoch_mat.py: create_diag"]}
{"id": "C150", "title": "The spectral gap of a graph", "statement": "find_spectral_gap returns the smallest non-zero eigenvalue of the random-walk Laplacian of the graph.", "quantifier": "for all adjacency matrices of connected graphs", "why_tests_cant": "Claim about the eigenvalues of every graph.", "anchors": ["src/flowstab/temporal_network.py: find_spectral_gap"]}
{"id": "C151", "title": "Time scales are read back as given", "statement": "The time scales that were set are read back in the same order, as often as they are read, and lamda lists their inverses; only positive numbers and None are accepted.", "quantifier": "for all values of time_scale and keyword arguments of set_time_scale", "why_tests_cant": "All lists, iterators and generators of numbers and None.", "anchors": ["src/flowstab/flow_stability.py: FlowStability.time_scale", "src/flowstab/flow_stability.py: FlowStability.lamda", "src/flowstab/flow_stability.py: FlowStability.set_time_scale"]}
{"id": "C152", "title": "An analysis clusters one integral per time scale and direction", "statement": "Laplacians, inter-event matrices, flow clustering and Louvain steps of a new analysis complete for accepted time scales, and what is clustered for a scale and direction is the average covariance of walkers with that mean waiting time.", "quantifier": "for all networks, accepted lists of time scales, directions and initial densities", "why_tests_cant": "Composition of all steps over all networks and scales.", "anchors": ["src/flowstab/flow_stability.py: FlowStability.compute_inter_transition_matrices", "src/flowstab/flow_stability.py: FlowStability.set_flow_clustering", "src/flowstab/flow_stability.py: FlowStability.find_louvain_clustering"]}
{"id": "C153", "title": "Keyword arguments of compute_inter_transition_matrices", "statement": "compute_inter_transition_matrices accepts the keywords time_scale and lamda.", "quantifier": "for all networks and accepted values of time_scale, and positive lamda", "why_tests_cant": "All values of the keywords.", "anchors": ["src/flowstab/flow_stability.py: FlowStability.compute_inter_transition_matrices"]}
{"id": "C154", "title": "Linear approximations can be clustered", "statement": "After compute_inter_transition_matrices with linear_approx, set_flow_clustering succeeds.", "quantifier": "for all networks and lists of positive time scales", "why_tests_cant": "All networks and scales.", "anchors": ["src/flowstab/flow_stability.py: FlowStability.compute_inter_transition_matrices", "src/flowstab/flow_stability.py: FlowStability.set_flow_clustering"]}
{"id": "C155", "title": "Flow clusterings are those of the last call", "statement": "When set_flow_clustering returns, the clustering of every time scale and direction is the one of its arguments.", "quantifier": "for all networks, time scales, directions, initial densities, grids and earlier calls", "why_tests_cant": "All histories of earlier calls.", "anchors": ["src/flowstab/flow_stability.py: FlowStability.set_flow_clustering"]}
{"id": "C156", "title": "Transition matrices are those of a random walk in continuous time", "statement": "The exponential computed for a step exists and is unique, its rows are probabilities, a node without contacts stays, exactly the nodes that can be reached through contacts have positive probability, and the matrices of two successive times multiply to that of their sum.", "quantifier": "for all networks, steps, rates and real times", "why_tests_cant": "Claim about limits of series for all matrices.", "anchors": ["src/flowstab/temporal_network.py: ContTempNetwork.compute_inter_transition_matrices", "src/flowstab/temporal_network.py: ContTempNetwork.compute_laplacian_matrices"]}
{"id": "C157", "title": "Walks are reversible", "statement": "The probability flow between two nodes is the same in both directions when nodes are weighted by their numbers of contacts, so these weights are stationary in every step.", "quantifier": "for all networks, steps, rates and real times", "why_tests_cant": "Claim about limits of series for all matrices.", "anchors": ["src/flowstab/temporal_network.py: ContTempNetwork.compute_inter_transition_matrices"]}
{"id": "C158", "title": "Error of the linear approximation", "statement": "For times t up to one, the rows of the linear approximation differ from those of the exponential by at most 2 t^2 in total.", "quantifier": "for all Laplacians of walks and times between 0 and 1", "why_tests_cant": "All matrices and times.", "anchors": ["src/flowstab/temporal_network.py: lin_approx_trans_matrix"]}
{"id": "C159", "title": "The stationary matrix is the limit for long times", "statement": "The transition matrices converge to the result of compute_stationary_transition as time goes to infinity.", "quantifier": "for all undirected graphs, connected or not", "why_tests_cant": "Limit in time for all graphs.", "anchors": ["src/flowstab/temporal_network.py: compute_stationary_transition"]}
{"id": "C160", "title": "Exponentials by components are exponentials", "statement": "compute_subspace_expm returns the exponential of the matrix over the real numbers, with and without normalisation of the rows.", "quantifier": "for all matrices and labels with no entries between different labels, and zero row sums when rows are normalised", "why_tests_cant": "Claim about limits of series for all matrices.", "anchors": ["src/flowstab/temporal_network.py: compute_subspace_expm"]}
{"id": "C161", "title": "Integrals saved with a density are loaded as covariances", "statement": "With --init_p1, loading an integral whose marginals are the saved density gives the matrix of the file divided by its duration minus the product of probabilities, with rows that sum to zero, whether it is normalised or not.", "quantifier": "for all matrices, densities, durations and numbers of iterations", "why_tests_cant": "All matrices and densities.", "anchors": ["src/flowstab/scripts/run_clusterings.py: load_autocov_int"]}
{"id": "C162", "title": "Normalised integrals with a density sum to zero", "statement": "With --init_p1 and normalisation, the loaded matrix is symmetric and its entries sum to zero, also when rounding left a node of positive probability without entries.", "quantifier": "for all upper triangles, densities, tolerances and numbers of iterations", "why_tests_cant": "All matrices and densities.", "anchors": ["src/flowstab/scripts/run_clusterings.py: load_autocov_int", "src/flowstab/_cython_sparse_stoch.pyx: inplace_csr_row_normalize_array"]}
{"id": "C163", "title": "With a density, separate components cover the nodes that are visited", "statement": "With --init_p1 and --separate_comps, every run clusters each node of positive probability exactly once and no other node, clusters stay inside components, and the reported stability differs from that of the clusters by a constant.", "quantifier": "for all integrals with a density, options, seeds and orders", "why_tests_cant": "All networks and outcomes of the random numbers.", "anchors": ["src/flowstab/scripts/run_clusterings.py: load_autocov_int", "src/flowstab/scripts/run_clusterings.py: _compute_sym_list_clustering_fct"]}
{"id": "C164", "title": "With a density, all nodes can be clustered together", "statement": "With --init_p1 and no option for components, every run returns a partition of all nodes with its stability.", "quantifier": "for all integrals that agree with their density, seeds and orders", "why_tests_cant": "All networks and outcomes of the random numbers.", "anchors": ["src/flowstab/scripts/run_clusterings.py: load_autocov_int", "src/flowstab/scripts/run_clusterings.py: _compute_clustering_fct"]}
{"id": "C165", "title": "Matrices of the first step are found by the second", "statement": "Every matrix that run_laplacians_transmats.py saves for a waiting time, an interval, a direction and a method is the one that run_cov_integrals.py loads for them, compressed or not.", "quantifier": "for all sequences of saved matrices, positive waiting times and names of networks", "why_tests_cant": "All waiting times and sequences of files.", "anchors": ["src/flowstab/scripts/run_laplacians_transmats.py: worker", "src/flowstab/scripts/run_cov_integrals.py: worker", "src/flowstab/scripts/run_cov_integrals.py: load_trans_mat"]}
{"id": "C166", "title": "Intervals and waiting times are read from names of files", "statement": "run_cov_integrals.py finds in the directory exactly the intervals and the waiting times of the matrices saved for its network, in increasing order, whatever other files are there.", "quantifier": "for all names of networks, saved matrices and other files", "why_tests_cant": "All names and directories.", "anchors": ["src/flowstab/scripts/run_cov_integrals.py: tau_ws", "src/flowstab/scripts/run_laplacians_transmats.py: worker"]}
{"id": "C167", "title": "The integrals of a network are selected", "statement": "Integrals with different waiting times, methods or limits have different names, and run_clusterings.py selects exactly the finished integrals of its network.", "quantifier": "for all directories with integrals and temporary files of any networks", "why_tests_cant": "All names and directories.", "anchors": ["src/flowstab/scripts/run_clusterings.py: files", "src/flowstab/scripts/run_cov_integrals.py: worker"]}
{"id": "C168", "title": "Static adjacency matrices of the first step are found by the third", "statement": "With --compute_static_clustering, the adjacency matrix that run_laplacians_transmats.py saved for an interval is the one that run_clusterings.py uses for the integral over it.", "quantifier": "for all names of networks, intervals and waiting times", "why_tests_cant": "All names and sequences of files.", "anchors": ["src/flowstab/scripts/run_clusterings.py: worker", "src/flowstab/scripts/run_laplacians_transmats.py: worker"]}
{"id": "C169", "title": "Variation of information of the runs", "statement": "The variation of information that run_clusterings.py saves for the runs on an integral is the mean, over the requested number of different pairs of runs, of the variation of information divided by that of N log2 N for the N nodes clustered. It is between 0 and 1, and if all pairs are used it is 0 exactly when all runs found the same clustering.", "quantifier": "for all integrals, the three options for components, seeds and orders, at least two runs, numbers of pairs, and draws of the pairs", "why_tests_cant": "All clusterings and outcomes of the random numbers.", "anchors": ["src/flowstab/scripts/run_clusterings.py: worker", "src/flowstab/scripts/run_clusterings.py: compute_nvi_sample", "src/flowstab/scripts/run_clusterings.py: load_autocov_int"]}
{"id": "C170", "title": "Variation of information of the static clusterings", "statement": "The same holds for the static clusterings of an integral, which are clusterings of all nodes whatever the option for components.", "quantifier": "for all integrals, the three options for components, all partitions of the nodes, and draws of the pairs", "why_tests_cant": "All clusterings and outcomes of the random numbers.", "anchors": ["src/flowstab/scripts/run_clusterings.py: worker", "src/flowstab/scripts/run_clusterings.py: load_autocov_int"]}
{"id": "C171", "title": "The components are saved with the clusterings", "statement": "With --only_largest_comp or --separate_comps the saved results hold the component of each node, the number of components, and for the first option the nodes of a largest one.", "quantifier": "for all integrals and labels of their components", "why_tests_cant": "All networks.", "anchors": ["src/flowstab/scripts/run_clusterings.py: worker", "src/flowstab/scripts/run_clusterings.py: load_autocov_int"]}
{"id": "C172", "title": "The progress of a search is recorded", "statement": "With save_progress=True find_louvain_clustering finds the same partition as without, and partition_progress and stability_progress record its history: they start with the starting partition, hold one entry per meta loop and end with the partition found; each stability is that of the partition recorded with it, none is lower than the one before, and each but the last gains more than delta_r_threshold.", "quantifier": "for all sizes, transition matrices with non-negative entries and no empty row, autocovariances, orders of the nodes, thresholds and caps", "why_tests_cant": "All matrices and all orders in which nodes are visited; a test sees a few searches.", "anchors": ["src/flowstab/network_clustering.py: find_louvain_clustering", "src/flowstab/network_clustering.py: Clustering._save_progress"]}
{"id": "C173", "title": "Normalising an upper triangular matrix", "statement": "cython_inplace_csr_row_normalize_triu scales the rows of an upper triangular matrix T with positive values such that row k of T + T.T - diag(T) sums to row_sum[k], for every k with row_sum[k] != 0 and a row k that is not empty; a matrix with these sums is not changed.", "quantifier": "for all sizes, upper triangular matrices and vectors of sums", "why_tests_cant": "All matrices and sums; rounding aside the property is an identity over all entries.", "anchors": ["src/flowstab/_cython_sparse_stoch.pyx: cython_inplace_csr_row_normalize_triu"]}
{"id": "C174", "title": "Labels of a table of events", "statement": "A network made from a table of events with the default relabel_nodes has the node ids 0..n-1 for the n labels of the table in their order, and its events are the rows with labels translated by label_to_node_dict; it has the same nodes, events, times and static adjacency matrices as the network made from the columns as lists.", "quantifier": "for all tables of events", "why_tests_cant": "All labels and tables.", "anchors": ["src/flowstab/temporal_network.py: ContTempNetwork.__init__", "src/flowstab/temporal_network.py: ContTempNetwork.compute_static_adjacency_matrix"]}
{"id": "C175", "title": "Laplacians of a table of events", "statement": "In a network made from a table whose rows of the same two nodes do not overlap, each Laplacian is the random-walk Laplacian of the contacts in its interval of time, whatever the order of the rows and their index.", "quantifier": "for all tables with the labels 0..n-1, distinct index labels, events of positive duration between different nodes, and all windows", "why_tests_cant": "All tables, orders of the rows and windows.", "anchors": ["src/flowstab/temporal_network.py: ContTempNetwork.__init__", "src/flowstab/temporal_network.py: ContTempNetwork.compute_laplacian_matrices"]}
{"id": "C176", "title": "Tables read from csv files", "statement": "A network made from the path of a csv file is the one made from the table in the file; files that are missing, empty or malformed and other objects raise a ValueError.", "quantifier": "for all files and values of relabel_nodes and merge_overlapping_events", "why_tests_cant": "All files and options.", "anchors": ["src/flowstab/temporal_network.py: ContTempNetwork.__init__"]}
{"id": "C177", "title": "Merging overlapping rows of a table", "statement": "With merge_overlapping_events a network made from a table has no overlapping events and exactly the contacts of the rows, whatever the index of the table.", "quantifier": "for all tables with the labels 0..n-1, distinct index labels and events of positive duration whose overlaps are simple", "why_tests_cant": "All tables and patterns of overlaps.", "anchors": ["src/flowstab/temporal_network.py: ContTempNetwork.__init__", "src/flowstab/temporal_network.py: ContTempNetwork._merge_overlapping_events"]}
{"id": "C178", "title": "The table of the caller is left as it is", "statement": "Making a network from a table of events does not change the sources, targets, starting and ending times in the table that was given, so that a second network made from it is the same.", "quantifier": "for all tables, with and without merging", "why_tests_cant": "All tables and patterns of overlaps.", "anchors": ["src/flowstab/temporal_network.py: ContTempNetwork.__init__", "src/flowstab/temporal_network.py: ContTempNetwork._merge_overlapping_events"]}
{"id": "C179", "title": "Failing clusterings are not replaced by older ones", "statement": "After a completed set_flow_clustering a time scale and direction that was asked for has a clustering exactly when its construction in this call succeeded, so that find_louvain_clustering never uses clusterings of an earlier network or of earlier transition matrices.", "quantifier": "for all histories of a FlowStability object and all outcomes of the constructions", "why_tests_cant": "All histories and patterns of failing constructions.", "anchors": ["src/flowstab/flow_stability.py: FlowStability.set_flow_clustering", "src/flowstab/flow_stability.py: FlowStability.find_louvain_clustering"]}
{"id": "C180", "title": "Trimmed exponentials are transition matrices", "statement": "compute_subspace_expm and compute_subspace_expm_parallel with thresh_ratio delete exactly the entries smaller than the largest entry over the ratio; normalising then scales what is left of each row, and the result is a transition matrix if the exact exponential is one.", "quantifier": "for all matrices, labels of components, ratios of at least 1 and sizes, and all power series", "why_tests_cant": "All matrices and ratios; a row may lose all its entries only for some of them.", "anchors": ["src/flowstab/temporal_network.py: compute_subspace_expm", "src/flowstab/parallel_expm.py: compute_subspace_expm_parallel"]}
{"id": "C181", "title": "thresh_ratio of the exponential of a Laplacian", "statement": "sparse_lapl_expm with dense_expm=False and thresh_ratio deletes the entries between nodes in use that are smaller than the largest of these entries over the ratio, and no others, whatever the size of the network.", "quantifier": "for all Laplacians, factors, ratios, numbers of processes and sizes", "why_tests_cant": "All sizes; the code branches at 1000 nodes.", "anchors": ["src/flowstab/temporal_network.py: sparse_lapl_expm", "src/flowstab/temporal_network.py: compute_subspace_expm", "src/flowstab/parallel_expm.py: compute_subspace_expm_parallel"]}
{"id": "C182", "title": "Covariance of returning walks", "statement": "compute_S_0t0 returns, for every initial distribution and transition matrix, the matrix P0 T Pt^-1 T^t P0 - p0 p0^t, which is symmetric with rows of sum 0 and positive semidefinite.", "quantifier": "for all sizes, distributions and transition matrices", "why_tests_cant": "All distributions, also those that leave nodes unreached.", "anchors": ["src/flowstab/_cython_fast_funcs.pyx: compute_S_0t0"]}
{"id": "C183", "title": "Counting the entries of a sparse product", "statement": "csr_csc_matmul_countnnz counts the pairs of a row of A and a column of B that share an index, which is at least the number of nonzero entries of the product.", "quantifier": "for all CSR matrices A and CSC matrices B with as many columns as A has rows", "why_tests_cant": "All matrices; the search in a column does not go back, which matters only for some orders of the indices.", "anchors": ["src/flowstab/_cython_sparse_stoch.pyx: csr_csc_matmul_countnnz"]}
{"id": "C184", "title": "Only finished slices are left out", "statement": "When run_laplacians_transmats is started again, a slice counts as finished exactly when all files that the options ask for exist.", "quantifier": "for all options, waiting times and contents of the directory", "why_tests_cant": "All combinations of options and of files left by earlier runs.", "anchors": ["src/flowstab/scripts/run_laplacians_transmats.py: worker"]}
{"id": "C185", "title": "The waiting time in a name", "statement": "The waiting time that the name of a file shows has four significant digits and is the nearest such number to the waiting time used (the one with an even last digit half way), so it is within one part in 2000; larger waiting times are shown as larger or equal ones, and waiting times that differ by more than one part in a thousand never share a name.", "quantifier": "for all positive waiting times", "why_tests_cant": "All waiting times of all magnitudes.", "anchors": ["src/flowstab/scripts/run_laplacians_transmats.py: worker", "src/flowstab/scripts/run_cov_integrals.py: worker", "src/flowstab/scripts/run_clusterings.py: worker"]}
{"id": "C186", "title": "The longer the flow, the less stable is a partition", "statement": "For a flow given by the matrices between events, the stability of every partition under the integral over a longer part of the flow is at most its stability under the integral over a shorter part.", "quantifier": "for all partitions, stochastic matrices, initial distributions, increasing times, grids and both directions", "why_tests_cant": "All flows and partitions; the later integrals contain infinitely many possible continuations.", "anchors": ["src/flowstab/network_clustering.py: FlowIntegralClustering.__init__", "src/flowstab/network_clustering.py: Clustering.compute_stability"]}
{"id": "C187", "title": "Stability under a flow lies between 0 and the heterogeneity of the clusters", "statement": "The stability of a partition under every stored integral is at least 0 and at most the probability that two walkers drawn from the initial distribution start in different clusters; for the integral over the whole flow this bound is reached exactly when walkers from different clusters never meet.", "quantifier": "for all partitions, stochastic matrices, initial distributions, increasing times and both directions", "why_tests_cant": "All flows and partitions; the case of equality needs both implications.", "anchors": ["src/flowstab/network_clustering.py: FlowIntegralClustering.__init__", "src/flowstab/network_clustering.py: Clustering.compute_stability"]}
{"id": "C188", "title": "The moving of nodes stops at a local optimum", "statement": "When the sweeps of _louvain_move_nodes stop because of the threshold, no node can gain more than the threshold by moving to the cluster of one of its neighbours.", "quantifier": "for all matrices, neighbourhoods, orders of the nodes, thresholds and starting partitions", "why_tests_cant": "All orders of visits; a step made late in a sweep changes what was optimal for nodes visited before.", "anchors": ["src/flowstab/network_clustering.py: Clustering._louvain_move_nodes", "src/flowstab/network_clustering.py: Clustering._potential_new_clusters"]}
{"id": "C189", "title": "FlowStability objects hold valid values only", "statement": "Exactly the documented values are accepted by the properties of FlowStability, a refused value leaves the object as it was, and after any sequence of operations, also failing ones, all time scales are positive or None and the time direction is -1, 0 or 1.", "quantifier": "for all sequences of assignments and calls, and all outcomes of the computations inside", "why_tests_cant": "All sequences of operations.", "anchors": ["src/flowstab/flow_stability.py: time_scale, time_direction, t_start, t_stop, temporal_network, flow_clustering_forward, flow_clustering_backward"]}
{"id": "C190", "title": "Clusterings of the wrong direction become None", "statement": "flow_clustering_forward and flow_clustering_backward store clusterings of their direction under their time scale; anything else, also a clustering of the other direction, is replaced by None.", "quantifier": "for all objects, time scales and values", "why_tests_cant": "All objects and histories.", "anchors": ["src/flowstab/flow_stability.py: flow_clustering_forward, flow_clustering_backward"]}
{"id": "C191", "title": "The unit and the origin of time do not matter for a whole analysis", "statement": "When all start and end times are multiplied by a positive number and shifted, the network has the same nodes and the same Laplacians, and an analysis with the time scales multiplied by that number clusters the same matrices.", "quantifier": "for all tables of events, units, origins, windows, time scales, directions and initial distributions (without fix_tau_k)", "why_tests_cant": "All units and all tables; a constant tied to a unit would only show for some of them.", "anchors": ["src/flowstab/temporal_network.py: ContTempNetwork.__init__, compute_laplacian_matrices, compute_inter_transition_matrices", "src/flowstab/flow_stability.py: compute_laplacian_matrices, compute_inter_transition_matrices, set_flow_clustering, run_louvain"]}
{"id": "C192", "title": "The names of the nodes do not matter", "statement": "When the nodes get other names (or other numbers), nothing else changes: the numbers given to the new labels are a renumbering of the old ones, the Laplacians, the flow integrals and the matrices that are clustered are those of the renumbered nodes, and the stability of a partition and the information measures between partitions stay the same.", "quantifier": "for all labels and orders of labels, tables of events, windows, time scales, directions, partitions and renumberings", "why_tests_cant": "All renumberings; an asymmetry in the treatment of one node or index only shows for some of them.", "anchors": ["src/flowstab/temporal_network.py: ContTempNetwork.__init__, compute_laplacian_matrices", "src/flowstab/network_clustering.py: FlowIntegralClustering.__init__, Clustering.compute_stability, norm_var_information, norm_mutual_information", "src/flowstab/flow_stability.py: run_louvain"]}
{"id": "C193", "title": "Only the periods of contact matter", "statement": "Two lists of events that say of every pair of nodes at the same moments that they are in contact (a contact cut into several events, given in the other direction, or given in another order) give the same nodes and, over every window that begins and ends at times of both, the same product of inter-event transition matrices.", "quantifier": "for all lists of events that last, do not overlap (or overlap simply and are merged), all windows and all waiting times", "why_tests_cant": "All ways to cut a contact into events; the grids of times, the Laplacians and the exponentials all differ.", "anchors": ["src/flowstab/temporal_network.py: ContTempNetwork.__init__, compute_laplacian_matrices, compute_inter_transition_matrices"]}
{"id": "C194", "title": "Walkers follow the paths that respect time", "statement": "Over every window, the product of the inter-event transition matrices from node i to node j is positive exactly when contacts one after the other lead from i to j within the window; a node that nobody meets keeps its walkers and gets none.", "quantifier": "for all networks of lasting contacts, windows, pairs of nodes and positive rates", "why_tests_cant": "All paths through all networks; whether a product of exponentials is zero is no matter of a tolerance.", "anchors": ["src/flowstab/temporal_network.py: ContTempNetwork.compute_laplacian_matrices, compute_inter_transition_matrices, compute_transition_matrices"]}
{"id": "C195", "title": "What happens elsewhere or at other times does not matter", "statement": "When a group of nodes has, during a window, the same contacts in two networks and only contacts inside the group, the transitions inside the group over the window are the same in both networks, and walkers do not leave the group; the numbers of other nodes, their events and the events outside of the window are arbitrary.", "quantifier": "for all pairs of networks of lasting contacts without overlaps, windows between times of both, groups and rates", "why_tests_cant": "All networks around a group; the grids of times and the sizes of the matrices differ.", "anchors": ["src/flowstab/temporal_network.py: ContTempNetwork.compute_laplacian_matrices, compute_inter_transition_matrices, compute_transition_matrices"]}
{"id": "C196", "title": "The three groups of the step example meet in turn", "statement": "make_step_block_probs describes rounds of a step in which the groups keep to themselves and a step in which two of the three groups exchange (the first two, the last two, then the first and the last); deltat1 is the length of the exchanging steps and deltat2 that of the others, as its documentation says; a simulation with it raises no exception and its contacts follow the schedule.", "quantifier": "for all lengths of the steps, probabilities in [0, 1], times, populations of three groups and random draws", "why_tests_cant": "All lengths and probabilities; the limits of the steps are single moments.", "anchors": ["src/flowstab/synth_temp_network.py: make_step_block_probs, SynthTempNetwork.run"]}
{"id": "C197", "title": "Nodes that nothing connects are never put together", "statement": "In a flow clustering two nodes are in one cluster only if they are connected by walkers that can be at the same node after the same number of steps; so in a whole analysis only nodes connected by contacts, in any order of time, share a cluster.", "quantifier": "for all networks, numbers of nodes, time scales, directions, initial densities, visiting orders and limits", "why_tests_cant": "All networks with separate parts and all visiting orders; the exit for matrices that look like zero only shows with ten thousand nodes.", "anchors": ["src/flowstab/network_clustering.py: FlowIntegralClustering.__init__, find_louvain_clustering, SparseClustering", "src/flowstab/sparse_stoch_mat.py: SparseAutocovMat.is_all_zeros, aggregate", "src/flowstab/flow_stability.py: run_louvain"]}
{"id": "C198", "title": "The order in which the directory is listed does not matter", "statement": "run_cov_integrals.py takes the same number of nodes, intervals and waiting times from its directory of matrices in whatever order the system lists the files.", "quantifier": "for all directories and all orders", "why_tests_cant": "The order is up to the file system: a test sees the one of the machine it runs on.", "anchors": ["src/flowstab/scripts/run_cov_integrals.py: num_nodes, tau_ws"]}
{"id": "C199", "title": "At the end of a search no two clusters gain by being merged", "statement": "When find_louvain_clustering stops by its threshold rather than by its limit of levels, making one cluster of any two clusters of the result does not raise the stability by more than the threshold.", "quantifier": "for all transition matrices, initial densities, thresholds, visiting orders and iteration orders of sets", "why_tests_cant": "All pairs of clusters of all results; ties that hide a gain need particular numbers and particular visiting orders.", "anchors": ["src/flowstab/network_clustering.py: Clustering.find_louvain_clustering, _louvain_move_nodes, _get_updated_partition"]}
{"id": "C200", "title": "Transition matrices can be computed over any number of steps", "statement": "compute_transition_matrices and compute_lin_transition_matrices multiply compact inter-event matrices (SparseStochMat, the default of the scripts) over any number of steps without an exception, with the compiled kernels as with the fallback, and each result is the product of the matrices.", "quantifier": "for all numbers of steps, sizes and compact matrices with rows that sum to 1", "why_tests_cant": "All numbers of steps; the tests multiply two matrices, and the arrays get another width only after the first product.", "anchors": ["src/flowstab/sparse_stoch_mat.py: SparseStochMat.__matmul__, __add__, inplace_row_normalize", "src/flowstab/temporal_network.py: ContTempNetwork.compute_transition_matrices, compute_lin_transition_matrices", "src/flowstab/_cython_sparse_stoch.pyx: stoch_mat_add"]}
{"id": "C201", "title": "Cython is optional for sparse clusterings", "statement": "find_louvain_clustering of a SparseClustering finds the same clustering with the fallback kernels in Python (_cython_subst.py), which are loaded when Cython is absent, as with the compiled ones.", "quantifier": "for all covariances that can be clustered, thresholds, limits and visiting orders", "why_tests_cant": "Two implementations have to be compared on all inputs; a test run has one of them.", "anchors": ["src/flowstab/_cython_subst.py: compute_delta_PT_moveto, compute_delta_S_moveto, compute_delta_PT_moveout, aggregate_csr_mat", "src/flowstab/sparse_stoch_mat.py: SparseAutocovMat._compute_delta_S_moveto, _compute_delta_S_moveout, aggregate", "src/flowstab/network_clustering.py: SparseClustering"]}
{"id": "C202", "title": "Cutting a period into slices does not change the integrals", "statement": "An integral that run_cov_integrals.py computes from the slices written by run_laplacians_transmats.py depends only on the times at which it starts and ends, not on how the period was cut into slices, and it is what FlowIntegralClustering gives for the whole period in one slice, forwards and backwards.", "quantifier": "for all temporal networks, all two ways of cutting, rates, grids of intervals and histories of runs, both methods", "why_tests_cant": "All cuts of all networks; events that overlap and go on across a cut are rare in small data.", "anchors": ["src/flowstab/scripts/run_laplacians_transmats.py: worker", "src/flowstab/scripts/run_cov_integrals.py: worker, load_trans_mat", "src/flowstab/temporal_network.py: ContTempNetwork.compute_laplacian_matrices, compute_inter_transition_matrices, compute_lin_inter_transition_matrices, load_inter_T", "src/flowstab/network_clustering.py: FlowIntegralClustering.__init__"]}
{"id": "C203", "title": "Errors of the matrices between events at most add up", "statement": "If the transition matrices of the steps between events are only approximately right (linear approximation, trimmed exponentials, rounding), each off by at most e_k in every row, then the stability of any partition in the flow integral is off by at most the sum of the e_k, over any number of steps, and the best partition of the approximate flow is within twice that sum of the best one.", "quantifier": "for all sequences of stochastic matrices, numbers of steps, initial densities, times, grids and partitions, in both directions of time", "why_tests_cant": "An error bound over all flows of any length and all partitions; a test sees the error of single cases.", "anchors": ["src/flowstab/network_clustering.py: FlowIntegralClustering.__init__, _compute_T_list, _compute_integral, Clustering.compute_stability"]}
{"id": "C204", "title": "--save_flow_int adds the integrals of the slices to what is saved", "statement": "With --save_flow_int, run_laplacians_transmats.py saves for each slice and direction the integral of the flow over the slice, the one FlowIntegralClustering computes from the matrices between events, and the transition matrices are the same as without the option.", "quantifier": "for all temporal networks, slices with at least one step, rates, both directions and both methods", "why_tests_cant": "All networks and slices; the scripts are not run by the tests.", "anchors": ["src/flowstab/scripts/run_laplacians_transmats.py: worker", "src/flowstab/network_clustering.py: FlowIntegralClustering.__init__", "src/flowstab/temporal_network.py: ContTempNetwork.compute_transition_matrices, compute_lin_transition_matrices"]}
{"id": "C205", "title": "The linear approximation changes stabilities by a bounded amount", "statement": "With compute_lin_inter_transition_matrices in place of compute_inter_transition_matrices, the stability of every partition in the flow integral changes by at most the sum over the steps of 2 (lamda tau_k)^2, plus the errors of the exponentials, as long as no lamda tau_k exceeds 1, and a partition that is best with the linear approximation is best up to twice that sum.", "quantifier": "for all temporal networks, windows, rates with lamda tau_k at most 1, initial densities, grids, directions and partitions", "why_tests_cant": "An error bound over all networks, numbers of steps and partitions, against the exact exponential; a test sees the error of single cases.", "anchors": ["src/flowstab/temporal_network.py: ContTempNetwork.compute_lin_inter_transition_matrices, compute_inter_transition_matrices, lin_approx_trans_matrix", "src/flowstab/network_clustering.py: FlowIntegralClustering.__init__, Clustering.compute_stability"]}
{"id": "C206", "title": "Static clusterings of a period", "statement": "With --compute_static_clustering, run_clusterings.py returns for every run a partition of all nodes with its Markov stability (t = 1) on the aggregated network, edges taken in both directions, never worse than singletons (beyond the tolerance of the zero test), and reports a run with the largest stability as the best one.", "quantifier": "for all networks that are not empty, seeds, visiting orders and limits of the search", "why_tests_cant": "All networks and random orders; nodes without contacts in a period appear in real data, not in small test networks.", "anchors": ["src/flowstab/scripts/run_clusterings.py: compute_static_clustering_fct, worker", "src/flowstab/network_clustering.py: static_clustering, SparseClustering._compute_S, Clustering.find_louvain_clustering", "src/flowstab/_cython_sparse_stoch.pyx: aggregate_csr_mat, compute_delta_PT_moveout"]}
{"id": "C207", "title": "Static clusterings that were asked for are saved", "statement": "When run_clusterings.py is run with --compute_static_clustering and the aggregated network of the period has been saved, the results saved for the period contain the static clusterings, whatever runs went before.", "quantifier": "for all histories of runs with any options, seeds and interruptions, the aggregated network being saved at any time", "why_tests_cant": "A statement about all histories of runs; the scripts are not run by the tests.", "anchors": ["src/flowstab/scripts/run_clusterings.py: worker, main"]}
{"id": "C208", "title": "Static stability falls with the Markov time", "statement": "On an undirected network, the static (Markov) stability of any given partition in continuous time never grows with the Markov time t; it starts at t = 0 at the probability that two walkers at equilibrium are in different clusters and never becomes negative. The covariance for the time 2t is that of a walk of duration t forth and back, the one used by flow stability.", "quantifier": "for all networks with non-negative weights, at least one of them positive, all partitions and all real times 0 <= s <= t", "why_tests_cant": "A statement about the exact matrix exponential for all networks, partitions and pairs of times; a test compares a few.", "anchors": ["src/flowstab/network_clustering.py: static_clustering, Clustering._compute_S, Partition.compute_stability"]}
{"id": "C209", "title": "Which clusters keep their static stability", "statement": "In continuous time, the static stability that a partition has lost since t = 0 is exactly the probability that a walker at equilibrium has changed its cluster: nothing is lost at any time when no edge joins two clusters, something at once when an edge does, and in a connected undirected network the stability of all partitions tends to 0 as t grows.", "quantifier": "for all networks with non-negative weights, at least one of them positive, all partitions and all real times", "why_tests_cant": "A statement about all partitions and unbounded times.", "anchors": ["src/flowstab/network_clustering.py: static_clustering, Clustering._compute_S, Partition.compute_stability"]}
{"id": "C210", "title": "Which partitions have the largest stability under a flow", "statement": "The stability of a partition under the flow of a window of a temporal network, in either direction of time, reaches its upper bound, the probability that two walkers drawn from the initial distribution are in different clusters, exactly when no contact during the window joins two of its clusters.", "quantifier": "for all networks without self contacts (overlapping events merged or absent), all windows of positive length, all rates, all positive initial distributions and all partitions", "why_tests_cant": "A statement about all networks, windows and partitions, from the events to the stability; a test sees single cases.", "anchors": ["src/flowstab/temporal_network.py: ContTempNetwork.compute_laplacian_matrices, compute_inter_transition_matrices", "src/flowstab/network_clustering.py: FlowIntegralClustering.__init__, Clustering.compute_stability"]}
{"id": "C211", "title": "The progress of a sparse search is recorded", "statement": "With save_progress=True find_louvain_clustering of a SparseClustering finds the same partition as without, and partition_progress and stability_progress record its history: they start with the starting partition, hold one entry per meta loop and end with the partition found; each stability is that of the partition recorded with it, none is lower than the one before, and each but the last gains more than delta_r_threshold.", "quantifier": "for all sizes, transition matrices, distributions, orders of the nodes, thresholds and caps, whatever was recorded before", "why_tests_cant": "All matrices and all orders in which nodes are visited; a test sees a few searches.", "anchors": ["src/flowstab/network_clustering.py: find_louvain_clustering, Clustering._save_progress, SparseClustering.compute_stability, SparseClustering._compute_clustered_autocov"]}
{"id": "C212", "title": "How much stability a flow can lose", "statement": "What the stability of a partition under the flow of a window lacks to its upper bound is at most twice the sum over the steps of the largest probabilities to leave a cluster in a step. In a temporal network that is at most twice the rate of the walk times the time during which contacts join two clusters, plus twice the errors of the computed transition matrices. It holds for every stored integral, both directions of time and any integral_time_grid.", "quantifier": "for all networks without self contacts (overlapping events merged or absent), all windows, rates, initial distributions, grids, partitions and bounds on the errors of the matrices", "why_tests_cant": "A bound for all networks, partitions and errors of the matrix exponential; a test sees single values.", "anchors": ["src/flowstab/temporal_network.py: ContTempNetwork.compute_laplacian_matrices, compute_inter_transition_matrices", "src/flowstab/network_clustering.py: FlowIntegralClustering.__init__, Clustering.compute_stability"]}
{"id": "C213", "title": "The best clusters do not join what is not connected", "statement": "There is a partition of largest stability, and in every such partition two nodes share a cluster only if they are connected: for a flow, by walkers that can be at the same node after the same number of steps; for a window of a temporal network, by contacts during the window in any order of time; for one transition matrix, by its entries. So clustering connected components separately cannot miss a better partition.", "quantifier": "for all sizes, matrices, networks without self contacts, windows, grids, positive initial distributions and all partitions of largest stability", "why_tests_cant": "A statement about all partitions of all networks; a test cannot look at all partitions.", "anchors": ["src/flowstab/network_clustering.py: FlowIntegralClustering.__init__, Clustering.compute_stability, Clustering._compute_S", "src/flowstab/temporal_network.py: ContTempNetwork.compute_laplacian_matrices, compute_inter_transition_matrices", "src/flowstab/scripts/run_clusterings.py: _compute_sym_list_clustering_fct, worker"]}
{"id": "C214", "title": "A slow walk leaves every node in its own cluster", "statement": "If two nodes share a cluster of a partition of largest stability under a flow, the product of their initial probabilities is at most the sum over the steps of the largest probabilities to leave a node in a step; in a temporal network, at most the rate of the walk times the time during which some contact takes place plus the errors of the computed matrices. Hence for a uniform start and a sum below 1/n^2 the partition into single nodes is the only best one.", "quantifier": "for all networks without self contacts (overlapping events merged or absent), all windows, rates, initial distributions, grids, bounds on the errors of the matrices and all partitions of largest stability", "why_tests_cant": "A statement about all partitions of all networks for every rate below a bound; a test cannot look at all partitions.", "anchors": ["src/flowstab/network_clustering.py: FlowIntegralClustering.__init__, Clustering.compute_stability", "src/flowstab/temporal_network.py: ContTempNetwork.compute_laplacian_matrices, compute_inter_transition_matrices"]}
{"id": "C215", "title": "Nodes in the same position are treated alike", "statement": "If exchanging nodes keeps the contacts of a window and the initial distribution, a partition and the partition with the exchanged nodes have the same stability, up to twice the sum of the errors of the computed transition matrices. If the matrices themselves do not change by the exchange, neither do the integrals, and the exchanged partition is one of largest stability exactly if the first one is.", "quantifier": "for all networks without self contacts and without overlapping events, all windows, exchanges, rates, initial distributions that the exchange keeps, grids, partitions and bounds on the errors of the matrices", "why_tests_cant": "A symmetry for all networks and all partitions; a test can only compare a few.", "anchors": ["src/flowstab/temporal_network.py: ContTempNetwork.compute_laplacian_matrices, compute_inter_transition_matrices", "src/flowstab/network_clustering.py: FlowIntegralClustering.__init__, Clustering.compute_stability"]}
{"id": "C216", "title": "The unit and the origin of time do not matter for instantaneous events", "statement": "When all times of the events of a ContTempInstNetwork are multiplied by a positive number and shifted, the network has the same nodes and the same Laplacians, and its times are the former times multiplied and shifted.", "quantifier": "for all lists of instantaneous events between different nodes, all units and origins", "why_tests_cant": "All units and lists of events; the constant that is tied to a unit shows at the last time only.", "anchors": ["src/flowstab/temporal_network.py: ContTempInstNetwork.__init__, compute_laplacian_matrices"]}
{"id": "C217", "title": "Instantaneous events act like events that last until the next time", "statement": "A ContTempInstNetwork has the nodes, the times and, for every window, the Laplacians of the ContTempNetwork of the same events in which every event lasts until the next time at which something happens (the last ones for one unit).", "quantifier": "for all lists of instantaneous events between different nodes of which no two concern the same nodes at the same time, all windows and grids", "why_tests_cant": "All lists of events; the two classes compute the matrices in different ways, from nothing at every time and by updates.", "anchors": ["src/flowstab/temporal_network.py: ContTempInstNetwork.__init__, compute_laplacian_matrices", "src/flowstab/temporal_network.py: ContTempNetwork.compute_laplacian_matrices"]}
{"id": "C218", "title": "The matrices between instantaneous events do not depend on the unit of time", "statement": "When all times of the events of a ContTempInstNetwork are multiplied by a positive number and shifted, compute_inter_transition_matrices with the same options (a rate, or none) gives the same matrices.", "quantifier": "for all lists of instantaneous events between different nodes, all units, origins and rates, and the default rate", "why_tests_cant": "All units and lists of events; the default rate refers to the times of the events, the steps do not.", "anchors": ["src/flowstab/temporal_network.py: ContTempInstNetwork.compute_inter_transition_matrices, compute_lin_inter_transition_matrices, ContTempNetwork.compute_inter_transition_matrices"]}
