{
 "claims": [
  {
   "property": "C01",
   "status": "proved",
   "theorems": [
    "C01_partition_invariant",
    "C01_no_exception"
   ],
   "note": ""
  },
  {
   "property": "C02",
   "status": "proved",
   "theorems": [
    "C02_move_frame",
    "C02_remove_empty_frame"
   ],
   "note": ""
  },
  {
   "property": "C03",
   "status": "proved",
   "theorems": [
    "C03_dict_roundtrip",
    "C03_list_roundtrip"
   ],
   "note": ""
  },
  {
   "property": "C04",
   "status": "partial",
   "theorems": [
    "C04_check_integrity_refuted",
    "C04_check_integrity_sound_partial",
    "C04_check_integrity_complete",
    "C04_check_integrity_exact"
   ],
   "note": "The full statement is refuted: clusters containing nodes outside range(num_nodes) are accepted. Soundness is proved for clusters made of nodes of the network, completeness in full."
  },
  {
   "property": "C05",
   "status": "proved",
   "theorems": [
    "C05_indicator_dense",
    "C05_indicator_sparse_same",
    "C05_row_sums",
    "C05_column_sums"
   ],
   "note": ""
  },
  {
   "property": "C06",
   "status": "partial",
   "theorems": [
    "C06_move_atomic_refuted",
    "C06_move_atomic_partial"
   ],
   "note": "Refuted: moving to a missing cluster raises after the node was removed from its old cluster. Unknown nodes are rejected without effect."
  },
  {
   "property": "C07",
   "status": "proved",
   "theorems": [
    "C07_gain_exact"
   ],
   "note": ""
  },
  {
   "property": "C08",
   "status": "proved",
   "theorems": [
    "C08_sweeps_exact_gain"
   ],
   "note": ""
  },
  {
   "property": "C09",
   "status": "proved",
   "theorems": [
    "C09_aggregation_preserves_stability",
    "C09_translation_back"
   ],
   "note": ""
  },
  {
   "property": "C10",
   "status": "proved",
   "theorems": [
    "C10_not_worse_than_singletons",
    "C10_zero_S"
   ],
   "note": "T is required to be non-negative without zero rows (otherwise see C56); every threshold is covered."
  },
  {
   "property": "C100",
   "status": "partial",
   "theorems": [
    "C100_numpy_integer_refuted",
    "C100_python_int_partial"
   ],
   "note": "Refuted for integer times that are not a python int (numpy integers, floats): the exponential is used without notice. Proved for python ints."
  },
  {
   "property": "C101",
   "status": "partial",
   "theorems": [
    "C101_periodic_refuted",
    "C101_eigenvalue_one_partial",
    "C101_never_wrong_partial"
   ],
   "note": "Refuted: only the modulus of the eigenvalue is checked, so the eigenvector of another eigenvalue of modulus 1 of a periodic network may be used. Proved when the eigenvalue found is 1. With exact arithmetic a result is never wrong: whichever eigenpair is found, the density is stationary or there is an error."
  },
  {
   "property": "C102",
   "status": "partial",
   "theorems": [
    "C102_lonely_start_refuted",
    "C102_not_zero_partial",
    "C102_uniform"
   ],
   "note": "Refuted when S is declared zero although nodes are not connected (all walkers start in one component): one cluster is returned. Proved for every S that is not declared zero, and without exception for uniform p1."
  },
  {
   "property": "C103",
   "status": "partial",
   "theorems": [
    "C103_rnd_seed_refuted",
    "C103_own_seeds_partial",
    "C103_results",
    "C103_rnd_seed_repeats"
   ],
   "note": "Refuted when rnd_seed is among the keyword arguments: it overrides the reported seeds, and all repetitions are equal. Proved without rnd_seed; the number, validity and stabilities of the results are proved always."
  },
  {
   "property": "C104",
   "status": "partial",
   "theorems": [
    "C104_no_repetition_refuted",
    "C104_same_as_serial_partial",
    "C104_results"
   ],
   "note": "Refuted for num_repeat=0 (ValueError). Proved for at least one repetition."
  },
  {
   "property": "C105",
   "status": "partial",
   "theorems": [
    "C105_flow_integral_refuted",
    "C105_asymmetric_refuted",
    "C105_symmetric_partial"
   ],
   "note": "Refuted: the workers use p2 of the clustering instead of that of S, and take PT as symmetric. Proved when PT is declared symmetric and the vectors agree."
  },
  {
   "property": "C106",
   "status": "partial",
   "theorems": [
    "C106_late_grid_refuted",
    "C106_from_start_partial"
   ],
   "note": "Refuted for a grid that starts after the first time: the last integral raises IndexError. Proved for the default grid and for grids of times of the flow starting at its first time."
  },
  {
   "property": "C107",
   "status": "partial",
   "theorems": [
    "C107_second_call_refuted",
    "C107_after_exception_refuted",
    "C107_new_k_partial",
    "C107_repeated_call"
   ],
   "note": "Refuted: a second call returns None whatever its options, also after the first raised an exception and stored nothing. Proved for an index not tried before."
  },
  {
   "property": "C108",
   "status": "proved",
   "theorems": [
    "C108_pairs",
    "C108_mean"
   ],
   "note": ""
  },
  {
   "property": "C109",
   "status": "partial",
   "theorems": [
    "C109_labels_refuted",
    "C109_instantaneous_refuted",
    "C109_restored_partial",
    "C109_counts_partial",
    "C109_names_partial",
    "C109_class"
   ],
   "note": "Refuted: label_to_node_dict is not saved, and loading a ContTempInstNetwork raises (its constructor does not set the table of a ready events_table). Proved: every other attribute is restored; after merging, durations and node_array are computed from the remaining events."
  },
  {
   "property": "C11",
   "status": "partial",
   "theorems": [
    "C11_restart_refuted",
    "C11_restart_valid_partial"
   ],
   "note": "Refuted with a three node example: the cluster numbers of the initial partition are read as node numbers. Proved: a restart never raises and returns a valid partition."
  },
  {
   "property": "C110",
   "status": "partial",
   "theorems": [
    "C110_without_table_refuted",
    "C110_chosen_partial"
   ],
   "note": "Refuted: a list without events_table or node_to_label_dict gives a file that cannot be loaded. Proved for lists containing both."
  },
  {
   "property": "C111",
   "status": "partial",
   "theorems": [
    "C111_decimals_refuted",
    "C111_stems_partial",
    "C111_dotless_partial"
   ],
   "note": "Refuted: names that differ after their last dot (net_0.1, net_0.2) are saved to the same file. Proved for names that differ without their extensions."
  },
  {
   "property": "C112",
   "status": "partial",
   "theorems": [
    "C112_extension_refuted",
    "C112_older_file_refuted",
    "C112_found_partial",
    "C112_kept"
   ],
   "note": "Refuted: a compressed file named x.pickle is not found, and an older uncompressed file takes precedence. Proved for the other names."
  },
  {
   "property": "C113",
   "status": "partial",
   "theorems": [
    "C113_mixed_refuted",
    "C113_T_partial",
    "C113_T_lin_partial",
    "C113_lists"
   ],
   "note": "Refuted when T has both csr and SparseStochMat values: the file cannot be loaded. Proved when the saved matrices are of one kind. Lists of matrices are refused."
  },
  {
   "property": "C114",
   "status": "partial",
   "theorems": [
    "C114_default_refuted",
    "C114_last_lamda_refuted",
    "C114_new_time_refuted",
    "C114_exact_partial",
    "C114_known_partial",
    "C114_last_partial",
    "C114_again_partial",
    "C114_rounded_sparse_partial"
   ],
   "note": "Refuted: the default call raises, saving differences without lamda saves only the last lamda, and matrices computed after the differences raise KeyError. Proved for a given lamda with sparse matrices, or with differences computed by the call itself."
  },
  {
   "property": "C115",
   "status": "proved",
   "theorems": [
    "C115_files_right",
    "C115_fresh_run"
   ],
   "note": "Without rounding, for a grid in increasing order (C121 for others)."
  },
  {
   "property": "C116",
   "status": "proved",
   "theorems": [
    "C116_covariance"
   ],
   "note": "For tolerances below 1/n, without rtol."
  },
  {
   "property": "C117",
   "status": "partial",
   "theorems": [
    "C117_both_methods_refuted",
    "C117_no_slices_refuted",
    "C117_torn_refuted",
    "C117_one_method_partial"
   ],
   "note": "Refuted: with both methods (the default) a restarted task raises; without --save_slice_trans the products it needs are missing; a file that was being written is taken for complete. Proved with one method, saved products and interruptions between writes."
  },
  {
   "property": "C118",
   "status": "proved",
   "theorems": [
    "C118_tasks"
   ],
   "note": "For grids of at least two points in increasing order."
  },
  {
   "property": "C119",
   "status": "partial",
   "theorems": [
    "C119_few_intervals_refuted",
    "C119_last_intervals_refuted",
    "C119_regular_partial"
   ],
   "note": "Refuted: with fewer intervals than points the script raises; the last intervals are dropped when the step does not divide their number. Proved: the grid is regular, and as documented when num_points divides the number of intervals."
  },
  {
   "property": "C12",
   "status": "partial",
   "theorems": [
    "C12_meta_cap_refuted",
    "C12_meta_cap_partial",
    "C12_sub_cap"
   ],
   "note": "Refuted by one: n_meta_iter_max+1 levels are performed. Proved: termination with that bound, and fewer than n_sub_iter_max sweeps per level."
  },
  {
   "property": "C120",
   "status": "proved",
   "theorems": [
    "C120_no_sharing"
   ],
   "note": "For grids in increasing order."
  },
  {
   "property": "C121",
   "status": "partial",
   "theorems": [
    "C121_unordered_refuted",
    "C121_increasing_partial"
   ],
   "note": "Refuted: with --int_list 0 2 1 3 an interval is counted twice. Proved for lists in increasing order."
  },
  {
   "property": "C122",
   "status": "proved",
   "theorems": [
    "C122_rounded",
    "C122_exact"
   ],
   "note": "End to end with the files of run_cov_integrals.py (C115, C116); without --integral_rtol."
  },
  {
   "property": "C123",
   "status": "proved",
   "theorems": [
    "C123_sum_zero"
   ],
   "note": ""
  },
  {
   "property": "C124",
   "status": "proved",
   "theorems": [
    "C124_left_out",
    "C124_separate",
    "C124_all_nodes"
   ],
   "note": "--only_largest_comp is C127."
  },
  {
   "property": "C125",
   "status": "partial",
   "theorems": [
    "C125_reported_refuted",
    "C125_constant_partial"
   ],
   "note": "Refuted: the terms of the meta nodes are counted and those of single nodes are not. Proved: the difference is the same constant for all runs."
  },
  {
   "property": "C126",
   "status": "proved",
   "theorems": [
    "C126_best",
    "C126_averages"
   ],
   "note": ""
  },
  {
   "property": "C127",
   "status": "partial",
   "theorems": [
    "C127_alone_refuted",
    "C127_largest_partial"
   ],
   "note": "Refuted: when the stored entries of the aggregated matrix are close to the product of probabilities, all the nodes are put in one cluster. Proved otherwise; the component and the stabilities are always right."
  },
  {
   "property": "C128",
   "status": "proved",
   "theorems": [
    "C128_counter"
   ],
   "note": ""
  },
  {
   "property": "C129",
   "status": "proved",
   "theorems": [
    "C129_same_results"
   ],
   "note": ""
  },
  {
   "property": "C13",
   "status": "proved",
   "theorems": [
    "C13_entries_sum_to_total",
    "C13_stability_is_trace",
    "C13_stability_is_pair_sum",
    "C13_order_independent"
   ],
   "note": ""
  },
  {
   "property": "C130",
   "status": "partial",
   "theorems": [
    "C130_temporary_refuted",
    "C130_restart_partial",
    "C130_kept",
    "C130_own"
   ],
   "note": "Refuted: after an interruption between the temporary and the final file, no later run saves results. Proved without --save_clustering_before_nvarinf."
  },
  {
   "property": "C131",
   "status": "partial",
   "theorems": [
    "C131_rounding_refuted",
    "C131_exact_partial",
    "C131_length_partial"
   ],
   "note": "Refuted in double precision (SpecFloat of the standard library): 50 slices of the period from 0 to 10 become 51. Proved with exact numbers; with --slice_length the last slice may pass tend."
  },
  {
   "property": "C132",
   "status": "proved",
   "theorems": [
    "C132_batches"
   ],
   "note": ""
  },
  {
   "property": "C133",
   "status": "partial",
   "theorems": [
    "C133_last_batch_refuted",
    "C133_sizes_partial",
    "C133_dividing_partial"
   ],
   "note": "Refuted: the last batch takes all the remaining slices. Proved when the number of batches divides the number of slices."
  },
  {
   "property": "C134",
   "status": "partial",
   "theorems": [
    "C134_overlap_refuted",
    "C134_apart_partial"
   ],
   "note": "Refuted: when contacts of a pair overlap, a slice finds a contact that the whole computation has interrupted (C35). Proved without overlaps."
  },
  {
   "property": "C135",
   "status": "proved",
   "theorems": [
    "C135_products"
   ],
   "note": "The exponential is any function meeting the contract that depends on the entries of the matrix only; tolerance 0."
  },
  {
   "property": "C136",
   "status": "proved",
   "theorems": [
    "C136_adjacencies"
   ],
   "note": ""
  },
  {
   "property": "C137",
   "status": "partial",
   "theorems": [
    "C137_verbose_refuted",
    "C137_only_adjacency_partial",
    "C137_refused_partial",
    "C137_calls_partial"
   ],
   "note": "Refuted: verbose is passed to methods that do not take it. Proved: verbose is the only argument refused; whatever the options, only the static adjacency matrices are written."
  },
  {
   "property": "C138",
   "status": "proved",
   "theorems": [
    "C138_sparse_stationary"
   ],
   "note": "connected_components is any function that labels components; Components.v has one."
  },
  {
   "property": "C139",
   "status": "proved",
   "theorems": [
    "C139_sparse_lin_approx",
    "C139_network",
    "C139_other_size"
   ],
   "note": ""
  },
  {
   "property": "C14",
   "status": "proved",
   "theorems": [
    "C14_incremental_update_exact"
   ],
   "note": ""
  },
  {
   "property": "C140",
   "status": "partial",
   "theorems": [
    "C140_outer_refuted",
    "C140_zero_refuted",
    "C140_outer_partial"
   ],
   "note": "Refuted: a vector with a single non-zero entry raises with triu=False, a zero vector always raises, and entries stored twice give a wrong product. Proved for distinct stored entries otherwise."
  },
  {
   "property": "C141",
   "status": "proved",
   "theorems": [
    "C141_csc_row_normalise"
   ],
   "note": "The argument is the matrix after tocsr."
  },
  {
   "property": "C142",
   "status": "proved",
   "theorems": [
    "C142_numpy_rebuild"
   ],
   "note": ""
  },
  {
   "property": "C143",
   "status": "proved",
   "theorems": [
    "C143_parallel_expm"
   ],
   "note": "expm_multiply is any function that multiplies by the exponential."
  },
  {
   "property": "C144",
   "status": "proved",
   "theorems": [
    "C144_stack_cols"
   ],
   "note": ""
  },
  {
   "property": "C145",
   "status": "partial",
   "theorems": [
    "C145_subst_normalise_refuted",
    "C145_subst_normalise_partial"
   ],
   "note": "Refuted: the stored entries are replaced by the sum of their row over row_sum instead of being divided by it. Proved: what it does to each row. Only the tests import the file."
  },
  {
   "property": "C146",
   "status": "proved",
   "theorems": [
    "C146_optimal_flow"
   ],
   "note": "linear_sum_assignment is any function that returns a cheapest assignment; the example has one that tries all."
  },
  {
   "property": "C147",
   "status": "partial",
   "theorems": [
    "C147_connectedness_refuted",
    "C147_connectedness_partial"
   ],
   "note": "Refuted: IndexError for an empty first subset and a second one with two nodes or more. Proved otherwise."
  },
  {
   "property": "C148",
   "status": "proved",
   "theorems": [
    "C148_set_to_ones"
   ],
   "note": ""
  },
  {
   "property": "C149",
   "status": "proved",
   "theorems": [
    "C149_create_diag"
   ],
   "note": ""
  },
  {
   "property": "C15",
   "status": "proved",
   "theorems": [
    "C15_row_sums",
    "C15_column_sums",
    "C15_one_cluster"
   ],
   "note": ""
  },
  {
   "property": "C150",
   "status": "partial",
   "theorems": [
    "C150_gap_refuted",
    "C150_symmetric_iff_regular",
    "C150_eigenvalues",
    "C150_wrong_above_one",
    "C150_gap_partial"
   ],
   "note": "Refuted: the complete graph with two nodes has gap 2, the result is -1. The matrix given to eigsh is symmetric exactly for regular graphs; there its eigenvalues are -1 and the non-zero eigenvalues of the Laplacian, so the result is -1 whenever the gap is above 1. Proved for regular graphs with a gap of at most 1. eigsh is any function returning an eigenvalue closest to zero (sigma=0)."
  },
  {
   "property": "C151",
   "status": "partial",
   "theorems": [
    "C151_iterator_refuted",
    "C151_iterator_lost",
    "C151_generator_rejected",
    "C151_scales_partial",
    "C151_accepted_partial",
    "C151_rates_partial",
    "C151_set_time_scale_partial"
   ],
   "note": "Refuted: the check consumes iterators, which are accepted and read back empty; generators are rejected. Proved for None, numbers and containers."
  },
  {
   "property": "C152",
   "status": "partial",
   "theorems": [
    "C152_default_refuted",
    "C152_none_raises",
    "C152_network_whole",
    "C152_merged_whole",
    "C152_analysis_partial",
    "C152_first_partial"
   ],
   "note": "Refuted: the matrices of the scale None are stored under the rate chosen by the network and looked up under None: KeyError. Proved for positive numbers, composing the models of network and flow integral."
  },
  {
   "property": "C153",
   "status": "partial",
   "theorems": [
    "C153_keywords_refuted",
    "C153_time_scale_raises",
    "C153_none_raises",
    "C153_invalid_raises",
    "C153_lamda_raises",
    "C153_lamda_none_partial"
   ],
   "note": "Refuted: time_scale is passed on to a method without such an argument, lamda is looked up under a misspelled name. Proved: lamda=None is as if not given."
  },
  {
   "property": "C154",
   "status": "partial",
   "theorems": [
    "C154_linear_refuted",
    "C154_linear_raises",
    "C154_ignored_partial"
   ],
   "note": "Refuted: set_flow_clustering reads inter_T only. Proved: the linear approximations have no influence on it."
  },
  {
   "property": "C155",
   "status": "partial",
   "theorems": [
    "C155_stale_refuted",
    "C155_unchanged",
    "C155_stale",
    "C155_fresh_partial"
   ],
   "note": "Refuted: the ValueError for an initial density of the wrong length is caught, the step counts as done and earlier clusterings stay. Proved for densities with one entry per node."
  },
  {
   "property": "C156",
   "status": "proved",
   "theorems": [
    "C156_walk",
    "C156_network"
   ],
   "note": "Over the real numbers, expm is the sum of the series; rounding is not modelled."
  },
  {
   "property": "C157",
   "status": "proved",
   "theorems": [
    "C157_reversible",
    "C157_network"
   ],
   "note": ""
  },
  {
   "property": "C158",
   "status": "proved",
   "theorems": [
    "C158_linear_error"
   ],
   "note": ""
  },
  {
   "property": "C159",
   "status": "proved",
   "theorems": [
    "C159_long_times"
   ],
   "note": ""
  },
  {
   "property": "C16",
   "status": "proved",
   "theorems": [
    "C16_metric"
   ],
   "note": "Doubles are real numbers."
  },
  {
   "property": "C160",
   "status": "proved",
   "theorems": [
    "C160_components"
   ],
   "note": "The rational version C55 covers the sparse representation and parallel runs."
  },
  {
   "property": "C161",
   "status": "proved",
   "theorems": [
    "C161_exact"
   ],
   "note": ""
  },
  {
   "property": "C162",
   "status": "partial",
   "theorems": [
    "C162_zero_rows_refuted",
    "C162_raises",
    "C162_sum_zero_partial",
    "C162_kernel"
   ],
   "note": "Refuted: without --integral_rtol (the default) the value for the diagonal of a node without entries is None times a number, a TypeError. Proved with a tolerance between 0 and 1, for files in CSR or CSC format, and without one when every node of positive probability has an entry."
  },
  {
   "property": "C163",
   "status": "proved",
   "theorems": [
    "C163_separate"
   ],
   "note": ""
  },
  {
   "property": "C164",
   "status": "partial",
   "theorems": [
    "C164_absent_refuted",
    "C164_present_partial"
   ],
   "note": "Refuted: the row of a node of probability zero is empty; for the last node the search for its diagonal entry reads after the end of the arrays (C29). Proved when all nodes have positive probability."
  },
  {
   "property": "C165",
   "status": "partial",
   "theorems": [
    "C165_five_digits_refuted",
    "C165_found_partial"
   ],
   "note": "Refuted: names keep four digits of a waiting time, and the second step takes its waiting times from the names; for 1.2345 it looks for the key 1/1.234 (KeyError). Proved for waiting times with at most four significant digits and names of networks without parts that look like waiting times or intervals."
  },
  {
   "property": "C166",
   "status": "partial",
   "theorems": [
    "C166_other_file_refuted",
    "C166_other_network_refuted",
    "C166_name_refuted",
    "C166_interval_refuted",
    "C166_found_partial"
   ],
   "note": "Refuted: all files of the directory are read, so that edge_weights.csv raises a ValueError and the intervals of other networks are counted; a network named wild_mice raises a ValueError, and one named int202001 adds an interval. Proved for directories with the files of one network whose name has no part starting with w or like an interval, and waiting times with at most four significant digits."
  },
  {
   "property": "C167",
   "status": "partial",
   "theorems": [
    "C167_longer_name_refuted",
    "C167_same_name_refuted",
    "C167_selected_partial",
    "C167_names_differ_partial"
   ],
   "note": "Refuted: the integrals of day_tau_weekly are selected for day; waiting times that agree in four digits share a name. Proved for waiting times with at most four significant digits when no other network starts with the name followed by _tau_w, and the name does not contain temp_integration or pTpint."
  },
  {
   "property": "C168",
   "status": "partial",
   "theorems": [
    "C168_names_refuted",
    "C168_never_found",
    "C168_expected_partial"
   ],
   "note": "Refuted: the first step writes net_static_adjacency_int000004.pickle and the third reads net_static_A_000004_to_000005.pickle, so no matrix of the first step is ever found. Proved: a file with the name that is read is found, for both directions of time."
  },
  {
   "property": "C169",
   "status": "proved",
   "theorems": [
    "C169_runs",
    "C169_one_run",
    "C169_density"
   ],
   "note": "With one run there is no value (the mean of nothing). With --init_p1 and --separate_comps the divisor counts all nodes, also those that are never visited and not clustered; the rest holds."
  },
  {
   "property": "C17",
   "status": "proved",
   "theorems": [
    "C17_early_exit",
    "C17_vectors",
    "C17_merge"
   ],
   "note": ""
  },
  {
   "property": "C170",
   "status": "partial",
   "theorems": [
    "C170_largest_refuted",
    "C170_static_partial"
   ],
   "note": "Refuted: with --only_largest_comp the number of nodes passed on is that of the aggregated matrix, one more than the largest component has; different static clusterings into that many clusters count as the same. Proved for the other options, and with the larger divisor for a largest component that misses at most one node."
  },
  {
   "property": "C171",
   "status": "partial",
   "theorems": [
    "C171_labels_refuted",
    "C171_none_saved",
    "C171_components_partial"
   ],
   "note": "Refuted: worker assigns the labels to label and saves comp_label, which stays None. Proved: the number of components and the nodes of a largest one are saved."
  },
  {
   "property": "C172",
   "status": "partial",
   "theorems": [
    "C172_same_search",
    "C172_progress_refuted",
    "C172_progress_partial",
    "C172_zeros"
   ],
   "note": "Refuted: if the autocovariance is all zeros the single cluster that is returned is not recorded, the records end with the starting partition. Proved for other autocovariances; a second search on the same object continues the lists of the first."
  },
  {
   "property": "C173",
   "status": "partial",
   "theorems": [
    "C173_triu_refuted",
    "C173_triu_partial",
    "C173_unchanged"
   ],
   "note": "Refuted: T = [[0,1],[0,1]] with the sums 1/2 and 1: the first pass finds the whole sum of row 1 in column 1, empties row 1, and it can not be filled again when row 0 has been scaled; row 1 of the symmetrised matrix sums to 1/2. Proved: every row that is asked for has its sum or has been emptied, rows stay multiples of what they were, and a matrix with the wanted sums is not changed."
  },
  {
   "property": "C174",
   "status": "partial",
   "theorems": [
    "C174_labels_refuted",
    "C174_numbered_partial",
    "C174_other_labels"
   ],
   "note": "Refuted: only the dictionaries are made, the table keeps its labels; with the labels 5 and 7 the network of two nodes has the ids 5 and 7. Proved for tables labelled 0, 1, ...; with all other labels merging, static matrices and Laplacians raise."
  },
  {
   "property": "C175",
   "status": "partial",
   "theorems": [
    "C175_unsorted_refuted",
    "C175_laplacians_partial"
   ],
   "note": "Refuted: a table is neither sorted nor numbered anew; of two successive events of a pair listed in the other order, the start of the second is processed before the end of the first. Proved for tables in order of time with the index 0, 1, ..., and for any order if events of a pair do not touch."
  },
  {
   "property": "C176",
   "status": "partial",
   "theorems": [
    "C176_path_refuted",
    "C176_never",
    "C176_without_relabelling_partial"
   ],
   "note": "Refuted: with the default relabel_nodes=True l.188 reads events_table.source_nodes of the path, an AttributeError for every file. Proved for relabel_nodes=False."
  },
  {
   "property": "C177",
   "status": "partial",
   "theorems": [
    "C177_own_index_refuted",
    "C177_merging_partial"
   ],
   "note": "Refuted: index labels are used as positions; with the index 1, 0 the wrong row is dropped, with labels beyond the number of rows an IndexError is raised. Proved for the index 0, 1, ... with the restrictions of C37."
  },
  {
   "property": "C178",
   "status": "partial",
   "theorems": [
    "C178_merging_refuted",
    "C178_untouched_partial"
   ],
   "note": "Refuted: no copy is made, and the first round of merging changes ending times in the caller's table. Proved without merging and for rows without overlaps; a column of durations is added in any case."
  },
  {
   "property": "C179",
   "status": "partial",
   "theorems": [
    "C179_stale_refuted",
    "C179_made_partial",
    "C179_noticed",
    "C179_every_scale"
   ],
   "note": "Refuted: a ValueError of FlowIntegralClustering is only logged, the step counts as completed and the entry of an earlier network stays, which find_louvain_clustering then uses. Proved: successful constructions are stored, the other entries stay as they were, and without an older entry find_louvain_clustering does not complete."
  },
  {
   "property": "C18",
   "status": "proved",
   "theorems": [
    "C18_nmi",
    "C18_trivial"
   ],
   "note": "The value is 1 exactly when the clusterings are the same. Two trivial clusterings give 0/0."
  },
  {
   "property": "C180",
   "status": "partial",
   "theorems": [
    "C180_rows_refuted",
    "C180_threshold_partial"
   ],
   "note": "Refuted: the largest entry is that of the whole matrix, and with a ratio below the number of nodes a row can lose all its entries; it then sums to 0. Proved: exactly the entries below the threshold are deleted, rows with an entry left sum to 1, and with a ratio of at least the number of nodes the result is a transition matrix."
  },
  {
   "property": "C181",
   "status": "partial",
   "theorems": [
    "C181_small_refuted",
    "C181_ignored",
    "C181_large_partial"
   ],
   "note": "Refuted: with fewer than 1000 nodes in use, or when they are connected, thresh_ratio (and normalize_rows) is ignored also with dense_expm=False. Proved for larger networks with several components; otherwise the exponential itself is returned."
  },
  {
   "property": "C182",
   "status": "partial",
   "theorems": [
    "C182_unreached_refuted",
    "C182_defined",
    "C182_covariance_partial"
   ],
   "note": "Refuted: 1/pt[k] raises ZeroDivisionError when some node is not reached. Proved otherwise."
  },
  {
   "property": "C183",
   "status": "partial",
   "theorems": [
    "C183_unsorted_refuted",
    "C183_count_partial"
   ],
   "note": "Refuted: with unsorted indices pairs are missed, and the count can be smaller than the number of nonzero entries. Proved for sorted indices; in any case nothing is counted that is not there."
  },
  {
   "property": "C184",
   "status": "partial",
   "theorems": [
    "C184_inter_refuted",
    "C184_one_kind_refuted",
    "C184_skipped_partial",
    "C184_complete_partial"
   ],
   "note": "Refuted: if the transition matrices of a slice exist the slice is left out although the matrices between events were asked for and are missing; and if only one of the two kinds of matrices is asked for, a complete slice is not left out. Proved: a slice that is left out has all transition matrices asked for, and all files unless both sorts of files are asked for; a complete slice is left out if both kinds are asked for."
  },
  {
   "property": "C185",
   "status": "proved",
   "theorems": [
    "C185_nearest",
    "C185_half_way",
    "C185_order",
    "C185_names_differ"
   ],
   "note": ""
  },
  {
   "property": "C186",
   "status": "proved",
   "theorems": [
    "C186_longer"
   ],
   "note": "In exact arithmetic: dense or sparse matrices without rounding tolerance."
  },
  {
   "property": "C187",
   "status": "proved",
   "theorems": [
    "C187_bounds",
    "C187_reached"
   ],
   "note": "In exact arithmetic."
  },
  {
   "property": "C188",
   "status": "partial",
   "theorems": [
    "C188_ties_refuted",
    "C188_visit_best",
    "C188_last_sweep_partial",
    "C188_no_ties_partial"
   ],
   "note": "Refuted: steps that gain nothing are made (delta_r >= delta_r_best) and count as no gain, so a last sweep can move a node away and leave others with a better cluster. Proved: every visit makes the best step; in the last sweep no visited node could gain more than the threshold; without steps of zero gain a strict local optimum is reached."
  },
  {
   "property": "C189",
   "status": "proved",
   "theorems": [
    "C189_assignments",
    "C189_reachable_values"
   ],
   "note": ""
  },
  {
   "property": "C19",
   "status": "partial",
   "theorems": [
    "C19_refuted",
    "C19_counts_partial"
   ],
   "note": "Refuted: the function has no return statement and returns None. Proved: the counts it computes are those the distance is made of."
  },
  {
   "property": "C190",
   "status": "partial",
   "theorems": [
    "C190_wrong_direction_refuted",
    "C190_wrong_direction_raises",
    "C190_stored_partial"
   ],
   "note": "Refuted: a clustering of the other direction raises AssertionError (the docstring says that None is set and a warning issued); the object stays as it was. Proved for clusterings of the right direction and for other objects."
  },
  {
   "property": "C191",
   "status": "proved",
   "theorems": [
    "C191_network",
    "C191_analysis",
    "C191_merged_analysis"
   ],
   "note": "fix_tau_k=True replaces the durations by 1 and is excluded; time scales are positive numbers."
  },
  {
   "property": "C192",
   "status": "proved",
   "theorems": [
    "C192_labels",
    "C192_network",
    "C192_merged",
    "C192_merged_analysis",
    "C192_instantaneous",
    "C192_flow",
    "C192_analysis",
    "C192_stability",
    "C192_nvi",
    "C192_nmi"
   ],
   "note": "The merged theorems cover the merging of overlapping events, whose pairs of nodes are then visited in another order. Flow integrals without rounding; the exponential of a matrix is any function to which the numbers of the nodes do not matter."
  },
  {
   "property": "C193",
   "status": "proved",
   "theorems": [
    "C193_events",
    "C193_merged"
   ],
   "note": "The matrix exponential is the one over the reals, products are not rounded. The integrals of a flow add up the matrices at the times of the grid and do depend on the cutting; they are not covered."
  },
  {
   "property": "C194",
   "status": "proved",
   "theorems": [
    "C194_paths",
    "C194_merged",
    "C194_alone"
   ],
   "note": "Events of a pair do not overlap, or overlap simply and are merged (see C35 and C37 for others). The matrix exponential is the one over the reals."
  },
  {
   "property": "C195",
   "status": "proved",
   "theorems": [
    "C195_elsewhere",
    "C195_merged"
   ],
   "note": "The matrix exponential is the one over the reals."
  },
  {
   "property": "C196",
   "status": "partial",
   "theorems": [
    "C196_lengths_refuted",
    "C196_schedule_partial",
    "C196_simulation_partial"
   ],
   "note": "Refuted: the documentation of make_step_block_probs names the two lengths the wrong way round, the exchanging steps have length deltat2. Proved: the schedule with deltat1 for the steps within the groups, and the simulation."
  },
  {
   "property": "C197",
   "status": "partial",
   "theorems": [
    "C197_many_nodes_refuted",
    "C197_many_nodes",
    "C197_flow_partial",
    "C197_analysis_partial",
    "C197_dense_partial",
    "C197_dense_analysis_partial"
   ],
   "note": "Refuted: with 10000 nodes or more the integral of two separate halves, each perfectly mixed, is within the absolute tolerance 1e-8 of is_all_zeros and all nodes are put into one cluster. Proved: when is_all_zeros is false, and for the uniform density on fewer than 10000 nodes in any case. Dense matrices: proved when the matrix is not declared zero, and for the uniform density always (see also C102)."
  },
  {
   "property": "C198",
   "status": "partial",
   "theorems": [
    "C198_two_networks_refuted",
    "C198_other_file_refuted",
    "C198_order_partial",
    "C198_first_step_partial"
   ],
   "note": "Refuted: with the matrices of two networks in one directory the first file listed decides on the number of nodes; a file that is not a pickle makes the script fail if it is listed before all matrices. Proved: for directories of pickles whose matrices agree on the number of nodes, such as those that the first step leaves."
  },
  {
   "property": "C199",
   "status": "partial",
   "theorems": [
    "C199_ties_refuted",
    "C199_untied_partial",
    "C199_walk_partial"
   ],
   "note": "Refuted: moves that gain nothing are made and not counted (delta_r >= delta_r_best), so the only sweep of the last level can end with clusters that gain by being merged; the witness is a symmetric walk on five nodes. Proved: when no merge is tied (each loses, or gains more than the threshold), any two clusters of the result lose by being merged."
  },
  {
   "property": "C20",
   "status": "proved",
   "theorems": [
    "C20_sorted",
    "C20_threshold_needed"
   ],
   "note": "An empty list of clusters, and an empty cluster compared with an empty class, raise an exception."
  },
  {
   "property": "C200",
   "status": "partial",
   "theorems": [
    "C200_three_steps_refuted",
    "C200_compiled",
    "C200_fallback_partial",
    "C200_short_partial",
    "C200_force_csr_partial",
    "C200_trimmed_partial",
    "C200_trimmed_csr_partial",
    "C200_trimmed_steps_partial",
    "C200_trimmed_steps_csr_partial"
   ],
   "note": "Refuted: each product is row normalised, which turns its index arrays into 64-bit ones, and the compiled stoch_mat_add takes 32-bit arrays only; so the third factor (the second with a tolerance) raises ValueError. Proved: the products are right with the fallback kernels, for one or two steps, and for any number of steps with force_csr. With a tolerance, the matrix of the first step holds the entries above the tolerance relative to the largest entry of the block (of the whole matrix with force_csr), divided by what remains of the row."
  },
  {
   "property": "C201",
   "status": "partial",
   "theorems": [
    "C201_fallback_refuted",
    "C201_raises",
    "C201_vectors",
    "C201_never_wrong_partial"
   ],
   "note": "Refuted: the fallback reads idx.shape of an array.array, has no compute_delta_S_moveout and does not implement the aggregation; it raises as soon as a node has a neighbour, and always when the densities are vectors. Proved: when it returns, the result is that of the compiled kernels."
  },
  {
   "property": "C202",
   "status": "partial",
   "theorems": [
    "C202_overlap_refuted",
    "C202_slicings_partial",
    "C202_class_partial",
    "C202_loaded_partial",
    "C202_computed_partial"
   ],
   "note": "Refuted: when two events of a pair overlap, the end of the first interrupts the second one in a slice that holds both, but not in a slice that starts later (as in C134), and the integrals over the same period differ. Proved: for networks without such events the integrals do not depend on the slices and are those of FlowIntegralClustering, also after run_clusterings.py has loaded and normalised them, and with the exponentials all of them are computed."
  },
  {
   "property": "C203",
   "status": "proved",
   "theorems": [
    "C203_errors_add_up",
    "C203_nearly_best"
   ],
   "note": "For exact arithmetic inside FlowIntegralClustering (dense matrices, or no rounding); the matrices given are any two lists of stochastic matrices."
  },
  {
   "property": "C204",
   "status": "partial",
   "theorems": [
    "C204_attribute_refuted",
    "C204_nothing_saved",
    "C204_object_partial",
    "C204_transitions_partial"
   ],
   "note": "Refuted: the script reads the attribute I of FlowIntegralClustering, which the class does not set (it sets I_list), and the exception leaves the transition matrix unsaved as well. Proved: the list I_list of the object made by the script holds the integral of the slice in both directions of time, and the transition matrix kept would be the same as without the option."
  },
  {
   "property": "C205",
   "status": "proved",
   "theorems": [
    "C205_stability",
    "C205_nearly_best"
   ],
   "note": "Composes C158 and C203. The matrices used in place of the exponential are any stochastic ones, d k is their error against the exact exponential over the real numbers."
  },
  {
   "property": "C206",
   "status": "partial",
   "theorems": [
    "C206_isolated_refuted",
    "C206_contacts_partial",
    "C206_symmetric"
   ],
   "note": "Refuted: the aggregation keeps no entry for a node without contacts, and when it is the last one the next level reads outside the arrays (two triangles and an isolated node). Proved: for networks in which every node has a contact."
  },
  {
   "property": "C207",
   "status": "partial",
   "theorems": [
    "C207_late_network_refuted",
    "C207_never_added",
    "C207_temporary_stays",
    "C207_fresh_partial",
    "C207_saved_is_computed",
    "C207_flow_unchanged"
   ],
   "note": "Refuted: when the file of the aggregated network is missing, the results are saved without static clusterings, and later runs skip the file because results exist; a temporary file left by an interruption blocks them as well. Proved: a run that finds neither results nor a temporary file saves all that was asked for; what is saved was computed, and the other clusterings do not depend on the option."
  },
  {
   "property": "C208",
   "status": "proved",
   "theorems": [
    "C208_falls",
    "C208_bounds",
    "C208_start",
    "C208_exists",
    "C208_forth_and_back"
   ],
   "note": "Over the real numbers with the exact exponential; undirected networks and continuous time (the default of static_clustering). With discrete_time_rw it does not hold: the example C208_discrete_rises has a stability of -1/2 after one step and 1/2 after two."
  },
  {
   "property": "C209",
   "status": "proved",
   "theorems": [
    "C209_lost",
    "C209_kept",
    "C209_leaky",
    "C209_long_run"
   ],
   "note": "Over the real numbers with the exact exponential; continuous time and directed = False in static_clustering. The bound of the long run does not depend on the partition."
  },
  {
   "property": "C21",
   "status": "proved",
   "theorems": [
    "C21_arithmetic"
   ],
   "note": "scipy's sum with a multiple of the identity and transposition are a quantified record with a contract (scipy_ok), met by an instance in the examples. Includes that no kernel writes outside its buffers."
  },
  {
   "property": "C210",
   "status": "proved",
   "theorems": [
    "C210_contacts",
    "C210_merged"
   ],
   "note": "Dense, or sparse without rounding; the whole window as one integral. The matrices of the flow are any stochastic matrices that are positive exactly where the exact real exponentials of the Laplacians are."
  },
  {
   "property": "C211",
   "status": "partial",
   "theorems": [
    "C211_same_search",
    "C211_progress_refuted",
    "C211_progress_partial",
    "C211_zeros"
   ],
   "note": "Refuted: if the matrix passes for zero (is_all_zeros) the single cluster that is returned is not recorded, the records end with the starting partition. Proved for other matrices that SparseClustering can use; a second search on the same object continues the lists of the first."
  },
  {
   "property": "C212",
   "status": "proved",
   "theorems": [
    "C212_leaving",
    "C212_crossing",
    "C212_merged"
   ],
   "note": "Dense, or sparse without rounding. C212_leaving is about any stochastic matrices, in exact arithmetic; C212_crossing and C212_merged compare them with the exact real exponentials of the Laplacians of the network, row by row (sum of absolute differences). A step counts with its whole length as soon as a contact of the step joins two clusters; contacts do not change within a step."
  },
  {
   "property": "C213",
   "status": "proved",
   "theorems": [
    "C213_flow",
    "C213_matrix",
    "C213_contacts",
    "C213_merged",
    "C213_exists"
   ],
   "note": "Dense, or sparse without rounding; every node has a positive probability at the start (and, for one matrix, is reached). The matrices of a network are positive exactly where the exact real exponentials of the Laplacians are, as in C210. Best means among all partitions; what the searches find is C102 and C197."
  },
  {
   "property": "C214",
   "status": "proved",
   "theorems": [
    "C214_flow",
    "C214_contacts",
    "C214_merged",
    "C214_alone"
   ],
   "note": "Dense, or sparse without rounding; for contacts the matrices are within given distances of the exact exponentials."
  },
  {
   "property": "C215",
   "status": "proved",
   "theorems": [
    "C215_flow",
    "C215_contacts",
    "C215_merged"
   ],
   "note": "Dense, or sparse without rounding; for contacts the matrices are within given distances of the exact exponentials."
  },
  {
   "property": "C216",
   "status": "partial",
   "theorems": [
    "C216_unit_refuted",
    "C216_order_partial",
    "C216_unit_partial",
    "C216_origin_partial"
   ],
   "note": "Refuted: the events of the last time end one unit of time later (utimes[-1]+1), whatever the unit is, so the length of the last interval depends on the unit, and with it the weight of the last step in a flow integral. Proved: the nodes, the Laplacians of the whole time and all times but the last one follow the unit, and any other map that keeps the order of the times; with another origin only, everything does."
  },
  {
   "property": "C217",
   "status": "proved",
   "theorems": [
    "C217_lasting"
   ],
   "note": ""
  },
  {
   "property": "C218",
   "status": "partial",
   "theorems": [
    "C218_default_refuted",
    "C218_given_partial",
    "C218_linear_partial"
   ],
   "note": "Refuted: the default rate is one over the median time between events, while every step takes one unit (fix_tau_k=True), so that with the default rate the matrices depend on the unit. Proved: with a given rate they, and their linear approximations, depend on the order of the times only."
  },
  {
   "property": "C22",
   "status": "proved",
   "theorems": [
    "C22_product"
   ],
   "note": "Relative to the scipy contract for products of small matrices."
  },
  {
   "property": "C23",
   "status": "proved",
   "theorems": [
    "C23_from_full",
    "C23_there_and_back"
   ],
   "note": "For every non-zero diag_val, in particular the default 1, with given or computed nz_rowcols; see C60 for zero."
  },
  {
   "property": "C24",
   "status": "proved",
   "theorems": [
    "C24_row_normalise",
    "C24_row_normalise_zero"
   ],
   "note": "Scalar and array row sums; row_sum = 0 is covered in addition."
  },
  {
   "property": "C25",
   "status": "partial",
   "theorems": [
    "C25_index_order_refuted",
    "C25_index_order_partial"
   ],
   "note": "Refuted: __init__ sorts nz_rowcols but does not permute the small matrix. Proved for sorted indices."
  },
  {
   "property": "C26",
   "status": "partial",
   "theorems": [
    "C26_set_to_zeroes_refuted",
    "C26_set_to_zeroes_partial"
   ],
   "note": "Refuted: by default signed values are compared, so large negative entries vanish. Proved with use_absolute_value or without negative entries."
  },
  {
   "property": "C27",
   "status": "proved",
   "theorems": [
    "C27_accumulator"
   ],
   "note": ""
  },
  {
   "property": "C28",
   "status": "partial",
   "theorems": [
    "C28_refuted",
    "C28_queries_partial"
   ],
   "note": "Refuted for index lists with repetitions: PT entries are counted once, outer(p1,p2) entries with multiplicity. Proved for lists without repetition, and get_element for storage without repeated positions."
  },
  {
   "property": "C29",
   "status": "partial",
   "theorems": [
    "C29_refuted",
    "C29_out_of_bounds",
    "C29_gains_partial"
   ],
   "note": "Refuted for nodes whose CSR row is empty: the diagonal search reads the next row, or outside the arrays. Proved for non-empty rows."
  },
  {
   "property": "C30",
   "status": "partial",
   "theorems": [
    "C30_refuted",
    "C30_scalars_refuted",
    "C30_aggregate_partial",
    "C30_algorithms_agree"
   ],
   "note": "Refuted: negative block sums are dropped by one algorithm, scalars are replaced by 1/N. Proved for non-negative PT and normalised probabilities."
  },
  {
   "property": "C31",
   "status": "partial",
   "theorems": [
    "C31_refuted",
    "C31_tolerance_refuted",
    "C31_zeros_partial"
   ],
   "note": "Refuted: entries that are not stored are ignored and the tolerance is absolute. Proved: the zero matrix is recognised, and a positive answer bounds the entries of a covariance."
  },
  {
   "property": "C32",
   "status": "proved",
   "theorems": [
    "C32_relabel"
   ],
   "note": "For networks built from lists; a table given as events_table is not relabelled by the code."
  },
  {
   "property": "C33",
   "status": "proved",
   "theorems": [
    "C33_times",
    "C33_closest"
   ],
   "note": "Times are exact rationals."
  },
  {
   "property": "C34",
   "status": "proved",
   "theorems": [
    "C34_laplacians",
    "C34_merged"
   ],
   "note": "Also for merged networks."
  },
  {
   "property": "C35",
   "status": "partial",
   "theorems": [
    "C35_overlap_refuted",
    "C35_sound_partial"
   ],
   "note": "Refuted: with events [0,2] and [1,3] of a pair the pair is disconnected during [2,3). Proved for every list: pairs are connected only while in contact."
  },
  {
   "property": "C36",
   "status": "partial",
   "theorems": [
    "C36_self_contact_refuted",
    "C36_walk_like_partial"
   ],
   "note": "Refuted: an event of a node with itself counts twice in the degree. Proved for all lists without such events, with any overlaps, index or durations."
  },
  {
   "property": "C37",
   "status": "partial",
   "theorems": [
    "C37_nested_refuted",
    "C37_sound_partial"
   ],
   "note": "Refuted: [0,10] and [1,2] merge to [0,2]. Proved for every list: merging ends, leaves no overlaps and invents no contact; contacts are preserved exactly when overlapping events start at different times, overlap is transitive and the last to start is the last to end."
  },
  {
   "property": "C38",
   "status": "proved",
   "theorems": [
    "C38_durations",
    "C38_default"
   ],
   "note": "Contacts of a node with itself count twice on the diagonal."
  },
  {
   "property": "C39",
   "status": "proved",
   "theorems": [
    "C39_network_laplacians",
    "C39_products",
    "C39_end_to_end"
   ],
   "note": "The matrix exponential is a parameter assumed to give stochastic matrices for walk Laplacians and the identity for 0."
  },
  {
   "property": "C40",
   "status": "partial",
   "theorems": [
    "C40_new_window_refuted",
    "C40_first_window_partial",
    "C40_new_lamda_partial"
   ],
   "note": "Refuted: the results are cached by lamda only. Proved: they are those of the window in force when lamda was first used."
  },
  {
   "property": "C41",
   "status": "partial",
   "theorems": [
    "C41_negative_differences_refuted",
    "C41_exact_partial",
    "C41_all_partial",
    "C41_rounded_sparse_partial"
   ],
   "note": "Refuted with the default rounding: negative differences are deleted. Proved exact without rounding, and up to the tolerance for the sparse format."
  },
  {
   "property": "C42",
   "status": "partial",
   "theorems": [
    "C42_saving_rounds_refuted",
    "C42_saving_partial"
   ],
   "note": "Refuted: saving SparseStochMat matrices with round_zeros rounds those in memory. Proved without rounding, and for the delta format."
  },
  {
   "property": "C43",
   "status": "proved",
   "theorems": [
    "C43_linear_approximation"
   ],
   "note": "Continuity is stated as a Lipschitz bound."
  },
  {
   "property": "C44",
   "status": "proved",
   "theorems": [
    "C44_stationary"
   ],
   "note": "connected_components is a parameter with its contract (labels equal iff connected)."
  },
  {
   "property": "C45",
   "status": "proved",
   "theorems": [
    "C45_instantaneous"
   ],
   "note": "For networks built from lists."
  },
  {
   "property": "C46",
   "status": "partial",
   "theorems": [
    "C46_computed",
    "C46_rounding_refuted",
    "C46_exact_partial",
    "C46_symmetric_partial"
   ],
   "note": "Refuted with the default tolerance for sparse matrices: deleted entries leave nonzero row sums. Proved without rounding, both directions; symmetry always; C84 bounds the error."
  },
  {
   "property": "C47",
   "status": "partial",
   "theorems": [
    "C47_later_start_refuted",
    "C47_separated_partial"
   ],
   "note": "Refuted for a grid that starts after the flow: the integral starts with the flow. Proved when the grid starts with the flow and a time of the flow separates successive grid times, for the time of the flow before the grid time."
  },
  {
   "property": "C48",
   "status": "partial",
   "theorems": [
    "C48_negative_refuted",
    "C48_well_formed_partial"
   ],
   "note": "Refuted: negative IDs are accepted and alias rows of the matrices. Proved for all IDs 0 to N-1, non-negative delays, all methods and all draws."
  },
  {
   "property": "C49",
   "status": "partial",
   "theorems": [
    "C49_overshoot_refuted",
    "C49_all_but_last_partial"
   ],
   "note": "Refuted: the event that passes t_end is still recorded. Proved for all events but the last."
  },
  {
   "property": "C50",
   "status": "proved",
   "theorems": [
    "C50_refused_unchanged",
    "C50_body_runs_only_when_ready"
   ],
   "note": "For every state-tracked class; the FlowStability instance is the example."
  },
  {
   "property": "C51",
   "status": "proved",
   "theorems": [
    "C51_assignment_goes_back",
    "C51_forward_by_completion",
    "C51_steps_use_fresh_inputs"
   ],
   "note": "For every state-tracked class and every history, including assignments made inside method bodies."
  },
  {
   "property": "C52",
   "status": "proved",
   "theorems": [
    "C52_advertised_step_accepted",
    "C52_advertised_step_is_furthest",
    "C52_missing_listed"
   ],
   "note": ""
  },
  {
   "property": "C53",
   "status": "partial",
   "theorems": [
    "C53_single_direction_refuted",
    "C53_single_direction_never_final",
    "C53_sequence_completes_partial"
   ],
   "note": "Refuted: no history with a single direction reaches FINAL, because find_louvain_clustering requires both clusterings to have been assigned. Proved: both directions complete, and a single one does after assigning a placeholder to the other."
  },
  {
   "property": "C54",
   "status": "partial",
   "theorems": [
    "C54_default_scale_refuted",
    "C54_default_scale_never_computes",
    "C54_explicit_none_partial"
   ],
   "note": "Refuted: None counts as not given, so the step is always refused. Proved: [None] works; C152 shows that its matrices are not found by the next step."
  },
  {
   "property": "C55",
   "status": "proved",
   "theorems": [
    "C55_components",
    "C55_laplacian"
   ],
   "note": "For power series of any length with any coefficients, in particular all Taylor polynomials of the exponential."
  },
  {
   "property": "C56",
   "status": "partial",
   "theorems": [
    "C56_zero_rows_refuted",
    "C56_zero_rows_partial"
   ],
   "note": "Refuted: a cluster of zero rows becomes a meta node whose row cannot be normalised and the run raises. Proved: that is the only way to fail, and the partition reached is not worse than the singletons."
  },
  {
   "property": "C57",
   "status": "partial",
   "theorems": [
    "C57_given_network_refuted",
    "C57_given_network_never_starts",
    "C57_assigned_after_empty_call_partial"
   ],
   "note": "Refuted: only set_temporal_network leaves the INITIAL state. Proved: calling it without arguments and assigning the network afterwards works."
  },
  {
   "property": "C58",
   "status": "partial",
   "theorems": [
    "C58_row_normalise_refuted",
    "C58_row_normalise_partial"
   ],
   "note": "Refuted for diag_val = 0: the zero rows outside the stored ones get row_sum on the diagonal. Proved for a non-zero diagonal."
  },
  {
   "property": "C59",
   "status": "partial",
   "theorems": [
    "C59_fallback_refuted",
    "C59_fallback_normalise_refuted",
    "C59_fallback_from_full_refuted",
    "C59_fallback_partial"
   ],
   "note": "Refuted for row_sum = 0 and for stored zeros outside nz_rowcols. Proved otherwise."
  },
  {
   "property": "C60",
   "status": "partial",
   "theorems": [
    "C60_from_full_zero_diag_refuted",
    "C60_from_full_partial"
   ],
   "note": "Refuted for diag_val = 0: the output buffer is too small. Proved for non-zero diag_val."
  },
  {
   "property": "C61",
   "status": "proved",
   "theorems": [
    "C61_from_T"
   ],
   "note": ""
  },
  {
   "property": "C62",
   "status": "proved",
   "theorems": [
    "C62_from_T_forward"
   ],
   "note": "Relative to the scipy contract for transpose and product. For the default p2."
  },
  {
   "property": "C63",
   "status": "proved",
   "theorems": [
    "C63_scaling"
   ],
   "note": ""
  },
  {
   "property": "C64",
   "status": "proved",
   "theorems": [
    "C64_stability"
   ],
   "note": ""
  },
  {
   "property": "C65",
   "status": "partial",
   "theorems": [
    "C65_refuted",
    "C65_not_worse_partial",
    "C65_zero_partial"
   ],
   "note": "Refuted: the absolute tolerance of is_all_zeros puts all nodes in one cluster although singletons are better. Proved whenever is_all_zeros is false; otherwise every stability is bounded by the tolerance."
  },
  {
   "property": "C66",
   "status": "proved",
   "theorems": [
    "C66_same_as_dense"
   ],
   "note": "For set iteration orders that depend on the set only and when neither zero test fires."
  },
  {
   "property": "C67",
   "status": "partial",
   "theorems": [
    "C67_parallel_refuted",
    "C67_mat_partial",
    "C67_parallel_partial"
   ],
   "note": "Refuted: nvi_parallel adds to a buffer from malloc that is never cleared. Proved for nvi_mat, and for nvi_parallel when the buffer happens to be zero."
  },
  {
   "property": "C68",
   "status": "partial",
   "theorems": [
    "C68_refuted",
    "C68_forms_partial",
    "C68_nmi"
   ],
   "note": "Refuted: a dictionary that skips a cluster number leads to an empty set and a ValueError in norm_var_information. Proved for dictionaries without gaps, and in full for norm_mutual_information."
  },
  {
   "property": "C69",
   "status": "proved",
   "theorems": [
    "C69_average",
    "C69_samples_exist"
   ],
   "note": ""
  },
  {
   "property": "C70",
   "status": "proved",
   "theorems": [
    "C70_restores",
    "C70_first"
   ],
   "note": ""
  },
  {
   "property": "C71",
   "status": "partial",
   "theorems": [
    "C71_zero_duration_refuted",
    "C71_stable_partial"
   ],
   "note": "Refuted for the order of equal rows an unstable sort may give. Proved when every event's start precedes its end in the grid."
  },
  {
   "property": "C72",
   "status": "partial",
   "theorems": [
    "C72_original_index_refuted",
    "C72_unmerged_partial"
   ],
   "note": "Refuted: index labels are used as positions and unrelated events are dropped. Proved without merging."
  },
  {
   "property": "C73",
   "status": "partial",
   "theorems": [
    "C73_touching_refuted",
    "C73_apart_partial"
   ],
   "note": "Refuted: of two successive events of a pair listed in the other order, the start of the second is processed before the end of the first. Proved when events of a pair do not touch."
  },
  {
   "property": "C74",
   "status": "partial",
   "theorems": [
    "C74_merged_refuted",
    "C74_durations_partial"
   ],
   "note": "Refuted: merging does not update the column. Proved without merging."
  },
  {
   "property": "C75",
   "status": "partial",
   "theorems": [
    "C75_all_dropped_refuted",
    "C75_first_partial"
   ],
   "note": "Refuted: [0,2], [0,3], [0,4] of a pair are all dropped. Proved when the first event of the pair starts alone."
  },
  {
   "property": "C76",
   "status": "proved",
   "theorems": [
    "C76_order_of_events",
    "C76_instantaneous"
   ],
   "note": "C76_instantaneous: for instantaneous events neither the order nor repetitions matter."
  },
  {
   "property": "C77",
   "status": "partial",
   "theorems": [
    "C77_reverse_ignored_refuted",
    "C77_first_call_partial"
   ],
   "note": "Refuted: a second call for the same lamda with other options returns the first result. Proved for the first call."
  },
  {
   "property": "C78",
   "status": "partial",
   "theorems": [
    "C78_tolerance_refuted",
    "C78_without_tolerance_partial"
   ],
   "note": "Refuted: with tol the matrices of inter_T are trimmed in place. Proved for tol=None."
  },
  {
   "property": "C79",
   "status": "proved",
   "theorems": [
    "C79_tolerance",
    "C79_set_to_zeroes"
   ],
   "note": ""
  },
  {
   "property": "C80",
   "status": "partial",
   "theorems": [
    "C80_stationary_cached_refuted",
    "C80_same_window_partial"
   ],
   "note": "Refuted: the stationary matrices of the first window are reused. Proved when Laplacians are not recomputed after the first linear approximation."
  },
  {
   "property": "C81",
   "status": "partial",
   "theorems": [
    "C81_no_event_refuted",
    "C81_events_partial"
   ],
   "note": "Refuted: a window without steps and use_sparse_stoch appends to a dictionary. Proved otherwise."
  },
  {
   "property": "C82",
   "status": "proved",
   "theorems": [
    "C82_linear_end_to_end",
    "C82_stationary_stochastic"
   ],
   "note": ""
  },
  {
   "property": "C83",
   "status": "proved",
   "theorems": [
    "C83_default_rate"
   ],
   "note": ""
  },
  {
   "property": "C84",
   "status": "proved",
   "theorems": [
    "C84_rounding"
   ],
   "note": ""
  },
  {
   "property": "C85",
   "status": "proved",
   "theorems": [
    "C85_stored",
    "C85_default",
    "C85_repeated_raises",
    "C85_default_times",
    "C85_grid_times"
   ],
   "note": ""
  },
  {
   "property": "C86",
   "status": "proved",
   "theorems": [
    "C86_time_unit"
   ],
   "note": ""
  },
  {
   "property": "C87",
   "status": "proved",
   "theorems": [
    "C87_backward"
   ],
   "note": ""
  },
  {
   "property": "C88",
   "status": "proved",
   "theorems": [
    "C88_T_list"
   ],
   "note": ""
  },
  {
   "property": "C89",
   "status": "partial",
   "theorems": [
    "C89_window_refuted",
    "C89_no_integral",
    "C89_whole_partial"
   ],
   "note": "Refuted: the times of the whole network are used with the matrices of the window, which gives no integral. Proved without a window."
  },
  {
   "property": "C90",
   "status": "proved",
   "theorems": [
    "C90_prefix"
   ],
   "note": "IDs 0 to N-1 and non-negative delays."
  },
  {
   "property": "C91",
   "status": "partial",
   "theorems": [
    "C91_both_directions_refuted",
    "C91_opposite_partial"
   ],
   "note": "Refuted: a contact 0->1 does not prevent a contact 1->0. Proved: overlapping contacts have opposite directions."
  },
  {
   "property": "C92",
   "status": "partial",
   "theorems": [
    "C92_second_run_refuted",
    "C92_kept_partial",
    "C92_under_way_partial"
   ],
   "note": "Refuted: time restarts while the queue still holds old events. Proved: recorded events are kept, and the old contacts still under way are recorded in the second run."
  },
  {
   "property": "C93",
   "status": "partial",
   "theorems": [
    "C93_order_of_individuals_refuted",
    "C93_in_order_partial"
   ],
   "note": "Refuted: groups are looked up by position in the list, not by ID. Proved for individuals listed in the order of their IDs."
  },
  {
   "property": "C94",
   "status": "partial",
   "theorems": [
    "C94_zero_row_refuted",
    "C94_positive_rows_partial"
   ],
   "note": "Refuted for 'block_probs' with a zero row: the normalisation gives NaN. Proved for positive row sums."
  },
  {
   "property": "C95",
   "status": "proved",
   "theorems": [
    "C95_ends"
   ],
   "note": "IDs 0 to N-1 and non-negative delays."
  },
  {
   "property": "C96",
   "status": "partial",
   "theorems": [
    "C96_catching_up_refuted",
    "C96_not_too_many_partial"
   ],
   "note": "Refuted: after a long interval states are saved at every event until the counter has caught up. Proved: the k-th saved state is not earlier than k dt, and keys increase."
  },
  {
   "property": "C97",
   "status": "partial",
   "theorems": [
    "C97_same_time_refuted",
    "C97_under_way_partial"
   ],
   "note": "Refuted for two events at the same time. Proved for events that started before t, with a converse."
  },
  {
   "property": "C98",
   "status": "proved",
   "theorems": [
    "C98_undirected"
   ],
   "note": "The exponential enters by contract."
  },
  {
   "property": "C99",
   "status": "proved",
   "theorems": [
    "C99_linearised",
    "C99_one_step"
   ],
   "note": ""
  }
 ]
}