# Model and proofs for flow_stability

This directory contains a Coq 8.16.1 model of the parts of `/repo/src/flowstab`
that carry its logic, and machine-checked proofs about that model.
`properties.jsonl` lists the properties in words, `MANIFEST.json` maps each to
its theorems.

## Trusted base

* Coq's kernel (8.16.1) and `vm_compute`.
* The axioms printed by `Print Assumptions` under each theorem.  Theorems about
  logarithms (C16-C18, C67-C69, C108, C169, C170, and `C192_nvi`, `C192_nmi`), eigenvalues (C150)
  and the real exponential (C156-C160, C193-C195, C205, C208-C210, C212-C215) use the
  standard library's reals and list axioms among
  (`ClassicalDedekindReals.sig_not_dec`, `ClassicalDedekindReals.sig_forall_dec`,
  `FunctionalExtensionality.functional_extensionality_dep`,
  `Classical_Prop.classic`).  All other theorems of `MANIFEST.json`
  are closed under the global context.
* The reading of `/repo` recorded in the comments: every model definition cites
  the file and lines it transcribes and says where it simplifies.  The code is
  never executed here, so the tie between model and code is that reading.

### Modelling conventions

* **Numbers.** Floats are modelled by exact rationals (`Qc`, Leibniz equality).
  Rounding, overflow, NaN and infinities are outside the model, except in C131.  Where the code
  would divide by zero the model says so explicitly (error value or a
  hypothesis of the theorem).  `np.allclose` in `is_all_zeros` is modelled
  with its tolerances.
* **Times** of events are rationals, like all other numbers.
* **Sets and dicts.** Python sets are duplicate-free lists; iteration order of a
  set is never relied upon: where the code iterates over a set, the model takes
  an arbitrary iteration order as an argument and theorems quantify over it.
* **Randomness** (visiting orders, partner choice, durations) is an argument;
  theorems quantify over all outcomes.
* **External numerical routines** (`expm`, `connected_components`,
  `linear_sum_assignment`) are quantified arguments with the stated contract.
* **Exceptions** are values (`option`/`result`); effects that happened before
  the exception are kept when the property is about them.
* **Out of scope everywhere:** memory safety of the Cython code beyond the
  index reads that are modelled, performance, logging, pickling formats, the
  MKL back end, process pools (only the order-independent assembly of results
  is modelled).

## Layout

`rocq/theories/` holds, per area, a `*Model.v` (definitions only), a
`*Spec.v` (the vocabulary of the statements that is not model code), a
`*Proofs.v` (lemmas) and a `*Props.v` (the property theorems,
with examples showing that hypotheses can be met, and
`Print Assumptions`).  `Base.v` is the shared arithmetic/sum library.

## Plan per property

| id | modelled | how |
|---|---|---|
| C01-C03 | `Partition` constructors, `move_node`, `remove_empty_clusters` | invariant by induction over operation lists; frame lemmas; round trips |
| C04 | `check_integrity` | soundness/completeness against "is a partition of range(n)"; expected to fail for out-of-range nodes |
| C05 | `get_indicator` dense and CSC | entrywise characterisation |
| C06 | `move_node` with exceptions as values and effects kept | expected refutation |
| C07 | `_compute_delta_stab_moveto/_moveout`, `compute_stability` | finite-sum algebra |
| C08 | `_louvain_move_nodes` with arbitrary visiting orders and set orders | loop invariant |
| C09 | `_aggregate_clusters`, `_get_updated_partition` | double sums over nested partitions |
| C10-C12 | `find_louvain_clustering` | invariant through levels; C11 and the cap of C12 expected refuted |
| C13, C14 | clustered autocovariance and incremental updates | finite-sum algebra |
| C15 | autocovariance from T, p1 | finite-sum algebra |
| C16-C18 | information measures over the reals | log inequality, chain rule for entropies |
| C19 | `jaccard_distance` | refutation (no return value) |
| C20 | `sort_clusters` with arbitrary tie-breaking | permutation invariant and progress measure |
| C21-C25, C27 | `SparseStochMat` and its CSR kernels, accumulator | represented-matrix homomorphisms |
| C26 | `set_to_zeroes` | entrywise; expected refutation for negative entries |
| C28-C31 | `SparseAutocovMat` and its CSR kernels | against the represented dense matrix |
| C32-C38 | events table, relabelling, time grid, Laplacians, merging, static adjacency | sweep invariants over sorted events |
| C39-C42 | caches of transition matrices, products, delta encoding | induction over call histories and lists |
| C43, C44 | linear approximation, stationary transition | algebra over stochastic matrices |
| C45 | instantaneous network | list characterisation |
| C46, C47, C84-C89 | `FlowIntegralClustering` and its use by `set_flow_clustering` | sums of congruences T D T^t written as variances; position of grid times in the flow; equivalent descriptions of a flow |
| C48, C49, C90-C97 | `SynthTempNetwork` | invariant over arbitrary draw sequences; termination by a measure on the queue |
| C50-C54, C57 | `StateMeta` and the `FlowStability` instance | invariant over call histories |
| C55 | component-wise exponentials | matrix power series of any length; block structure of powers |
| C56 | zero rows in the dense Louvain run | refutation and the exact failing case |
| C58-C60 | `SparseStochMat` row normalisation, fallback kernels, conversion | represented matrix; refutations for zero diagonals and zero row sums |
| C61-C63 | `SparseAutocovMat.from_T`, `from_T_forward`, in-place diagonal products | represented matrix; quadratic form written as a variance |
| C64-C66 | `SparseClustering`: stability, node moves, aggregation, search | equality with the dense search on the represented matrix, level by level |
| C67-C69 | `nvi_mat`, `nvi_parallel`, argument forms, `avg_norm_var_information` | equality with the double sum; refutations for uninitialised memory and skipped cluster numbers |
| C70 | `sort_clusters` against a reordered list | one pass appends exactly the matching cluster per class |
| C71-C76 | zero durations, original index, durations column, first contacts, order of the list | sweep invariants; refutations with small event lists; instantaneous events: the set of events determines the table (`OrderInstProps.v`) |
| C77-C83 | options and caches of transition matrices, tolerance, linear approximations, default rate | induction over call histories; stochastic-matrix algebra; order statistics |
| C98-C101 | `static_clustering` | flows along edges; linearised stability as modularity; a Perron-Frobenius argument for stochastic matrices (uniqueness and positivity from strong connection) |
| C102-C107 | `Clustering`/`SparseClustering` constructors, `run_multi_louvain`, `compute_parallel_clustering`, `FlowIntegralClustering.find_louvain_clustering` | clusters stay inside components through all levels; the search depends on entries only; positions of grid times |
| C108 | `compute_parallel_nvi` | positions of sampled pairs |
| C109-C114 | saving and loading of networks and matrices | file names as character lists, a disk as a map from names; attributes as a map; round trips |
| C115-C121 | `scripts/run_cov_integrals.py`: `worker`, the grid and the tasks of `main` | programs over a disk that list their writes; an invariant of the disk kept by every prefix of the writes; locality of a task |
| C122-C130 | `scripts/run_clusterings.py`: loading, components, runs, summary, files | invariants of the normalisation; a node without links stays alone through all levels of the search; sorted forms of partitions |
| C131-C137 | `scripts/run_laplacians_transmats.py`: slices, batches, matrices of slices, files | induction over the bounds; uniqueness of the index of a time; IEEE double precision from the standard library's `SpecFloat` for the accumulation of bounds |
| C138-C149 | functions of `temporal_network.py`, `parallel_expm.py`, `sparse_stoch_mat.py`, `network_clustering.py` on used rows and columns, rows, columns, assignments and subsets | components of the used part are those of the whole; contracts for `connected_components` (met by `Components.v`), `expm_multiply`, `linear_sum_assignment` |
| C150 | `find_spectral_gap` | real matrices; eigenvalues of the shifted symmetric Laplacian |
| C151-C155 | time scales and the steps of `FlowStability` composed with the models of the network and the flow integral | loop invariants over lists of scales; composition of C39, C46 and C84 |
| C156-C160 | exponentials of Laplacians, stationary matrices and linear approximations over the reals | series with Coquelicot; Cauchy products; a contraction argument for long times |
| C161-C164 | integrals saved with a density (`--init_p1` of `run_clusterings.py`) | invariants of the normalisation; the lemmas of C124 for components without the assumption that every node has flow |
| C165-C168 | names of the files that the three scripts exchange | numbers as decimal strings, read back exactly; underscores cut names into parts, so that names are injective and start no other name |
| C169-C171 | variation of information and components saved by run_clusterings.py | the double sum over clusters of C108 with any number of nodes not below those clustered; partitions from C124, C127 and C163 |
| C172 | progress recorded by a search | the loop with the record, a chain of recorded partitions by induction on the loop; gains from C08 and C09 |
| C173 | `cython_inplace_csr_row_normalize_triu` | rows above k do not change from pass k on; column sums stop at the diagonal |
| C174-C178 | `ContTempNetwork(events_table=...)`: labels, Laplacians, csv files, merging, the caller's table | the lemmas of C32, C34, C37 and C73 for tables as they are; a round of merging without overlaps changes nothing |
| C179 | clusterings left over after failing constructions in `set_flow_clustering` | induction over the time scales with a list of outcomes per direction (`StateFlowProps.v`) |
| C180, C181 | thresholds of `compute_subspace_expm`, its parallel version and `sparse_lapl_expm` | the assembled matrix of C55; an entry of each row is at least the average (`ThreshProps.v`) |
| C182, C183 | `compute_S_0t0`, `csr_csc_matmul_countnnz` | variance as a sum of squares; the part of a sorted column that was passed is smaller than all that follows (`KernelProps.v`) |
| C184 | `scripts/run_laplacians_transmats.py`: the test whether all files exist | what is asked for against what is tested |
| C185 | the format of waiting times in names | rounding to the nearest integer, uniqueness of the exponent |
| C186 | stability and the length of a flow | variance of a conditional expectation: one more step lowers every block |
| C187 | bounds on the stability under a flow | the missing part is a weighted sum of products over pairs of clusters |
| C188 | where the sweeps of `_louvain_move_nodes` stop | the gain of every visit is at most that of its sweep; a last sweep without steps leaves every candidate losing (`LocalProps.v`) |
| C189, C190 | the values that a FlowStability object accepts | bodies change the data through assignments only; induction over histories (`StateValueProps.v`) |
| C191 | another unit and origin of time: the same matrices | every function of the tables commutes with the change of unit; chained with C152 (`UnitProofs.v`, `UnitProps.v`, `MergedPipeProps.v`, `UnitMergeProps.v`) |
| C192 | other names or numbers for the nodes | simulation of the matrices' updates under a permutation; sums do not depend on the order; merging: the changes for two pairs of nodes concern different rows and commute (`RenameSpec.v`, `RenameProofs.v`, `RenameProps.v`, `RenameMergeProps.v`, `RenameInstProps.v`, `RenameInfoProps.v`) |
| C193 | how contacts are cut into events | both products are refined to the times of both grids; `exp` of a Laplacian over a cut interval is a product; Laplacians are functions of the contacts (`PeriodSpec.v`, `PeriodProps.v`) |
| C194 | which transitions are possible | induction over the grid; an exponential is positive exactly between nodes that are connected (C156), journeys are cut at the times of the grid (`PathSpec.v`, `PathProps.v`) |
| C195 | contacts elsewhere or at other times | as C193, for the rows of a group that no step leaves, in matrices of two sizes (`ElsewhereProps.v`, `ElsewhereMergeProps.v`) |
| C196 | schedule of the step example | transcription of the function of time, limits by selection of the branch; simulation from C93, C94 (`StepProps.v`) |
| C197 | separate nodes stay apart | clusters of every level stay inside a component of the matrix; a positive entry is a meeting of two walkers; Laplacians have entries for events only; for the exit a counting argument (`MeetSpec.v`, `MeetProofs.v`, `MeetProps.v`) |
| C198 | order of the directory | sorted sets have one order only; the first number of nodes found is any of them (`ListingModel.v`, `ListingProps.v`) |
| C199 | merges at the end of a search | the last level makes one sweep whose gain is at most the threshold; without ties it moves nothing, so every visit compared all merges of its cluster (`JoinEndProps.v`) |
| C200 | products of compact matrices over many steps | the operations of `SparseModel.v` with the width of the index arrays; which sums the compiled kernel takes, and the products by induction on the steps (`WidthModel.v`, `WidthProps.v`, `WidthTrimProps.v`) |
| C201 | sparse clusterings without Cython | the search with its kernels as parameters; kernels that raise more often give the same result or raise (`FallbackModel.v`, `FallbackProps.v`) |
| C202 | slices and integrals | what a slice leaves on disk, composed from TransModel.v and CovModel.v; the steps between two bounds are determined by their times (`SlicedModel.v`, `SlicedProps.v`) |
| C203 | errors of the steps | the stability of a flow is convex in the transition probabilities, with slopes between -1 and 1; products of stochastic matrices add the errors (`ErrorProps.v`) |
| C204 | integrals of slices | the products given to the object are chains of the matrices between events, so its integral is that of C85 (`FlowIntModel.v`, `FlowIntProps.v`) |
| C205 | error of the linear approximation | the error of a step against the real exponential (C158), added up over the flow (C203) (`LinErrorProps.v`) |
| C206 | static clusterings of a period | the object of `static_clustering` is usable for the sparse search (C65, C98) when all nodes have contacts; the runs are summarised as in C126 (`StaticRunModel.v`, `StaticRunProps.v`) |
| C207 | files with static clusterings | an invariant of all histories of runs (`StaticFileModel.v`, `StaticFileProps.v`) |
| C208 | static stability and the Markov time | half of the time forth and half back (reversibility) makes the stability a mean of squares, which a further step can only lower by convexity (`StaticTimeModel.v`, `StaticTimeProps.v`) |
| C209 | static stability in the long run | the part lost is the probability of having changed the cluster; the limit of the exponential (C159) for connected networks (`StaticLongProps.v`) |
| C210 | largest stability under a flow | the loss of C187 is nothing exactly when no walkers of two clusters meet; the supports of the exponentials are the contacts of the window (C156), for products by positive diagonals (`ContactStabProps.v`) |
| C211 | progress recorded by a sparse search | the sparse loop with the record (`SparseProgressModel.v`, `SparseProgressProps.v`); levels as in C65, chain of records as in C172 |
| C212 | bound on the loss of stability under a flow | the flow whose walkers stay in their cluster keeps the largest stability (C210); the error of the stability is bounded by that of the matrices (as in C203); exp(-x) >= 1 - x bounds what leaves a node (`CrossTimeProps.v`) |
| C213 | best partitions stay inside connected components | splitting a cluster along a cut without connections gains the products of the probabilities; components as in C55; contacts as in C210 (`BestSplitProps.v`, `MergedBestProps.v`) |
| C214 | slow walks: best partitions of single nodes | joining two nodes costs twice the product of their probabilities of the upper bound (C187); the partition into single nodes lacks at most what C212 allows (`SlowProps.v`) |
| C215 | exchanging nodes in the same position | Laplacians are determined by the contacts (C34) and so are not changed by the exchange, nor are the powers and the series of the exponential; the errors as in C203, the flow as in C192 (`SymmetryProps.v`, `MergedBestProps.v`) |
| C216 | unit and origin of time, instantaneous events | the times are the distinct starting times and one more; the events of each time are the same; a network of two events refutes the last time (`InstUnitProps.v`) |
| C217 | instantaneous events as lasting ones | at every time but the last one, the events that start are those that are active; a Laplacian is determined by the contacts (`InstLastProps.v`) |
| C218 | unit of time and matrices between instantaneous events | every step takes one unit, so only the Laplacians (C216) matter; the default rate is refuted by a network of two events (`InstTransModel.v`, `InstTransProps.v`) |

## What is modelled

Per source file, the functions with a definition in the model (comments in the
`*Model.v` files give the lines) and what is left out.

* `network_clustering.py`: `Partition` (`PartitionModel.v`); `BaseClustering`,
  `Clustering` (`LouvainModel.v`, stability, moves, aggregation, search);
  `SparseClustering` (`SparseLouvainModel.v`); `norm_var_information`,
  `norm_mutual_information`, `avg_norm_var_information`, `jaccard_distance`,
  `sort_clusters` (`InfoModel.v`, `CompareModel.v`); the constructor of
  `FlowIntegralClustering` (`FlowModel.v`); `static_clustering`
  (`StaticModel.v`, with `eig` and `expm` as parameters under contracts);
  `run_multi_louvain`, `FlowIntegralClustering.find_louvain_clustering`
  (`MultiModel.v`).  Not
  modelled: plotting, logging, the timing and printing inside the search.
* `sparse_stoch_mat.py`, `_cython_sparse_stoch.pyx`, `_cython_subst.py`:
  `SparseStochMat`, `SparseAutocovMat` and the kernels they call.  Not
  modelled: the MKL product (taken as an exact matrix product), memory layout.
  The width of index arrays (32 or 64 bits), which the compiled kernels check,
  is modelled in `WidthModel.v` for the products of compact matrices; elsewhere
  kernels take what they are given.  `TransModel.v` has no widths: it describes
  products of csr matrices, or of compact matrices with the fallback kernels.
* `parallel_clustering.py`: `compute_parallel_clustering` (`MultiModel.v`) and
  `compute_parallel_nvi` (`InfoModel.v`); worker processes are function calls
  on the shared arrays.
* `_cython_fast_funcs.pyx`: the functions behind the clustering and information
  measures.  `compute_S_0t0` and, of `_cython_sparse_stoch.pyx`,
  `csr_csc_matmul_countnnz`, which nothing calls, are in `KernelModel.v`.
* `temporal_network.py`: building from lists, relabelling, time grid, static
  adjacency, Laplacians, merging, instantaneous networks (`EventsModel.v`);
  inter-event, linear and stationary matrices, their products, differences,
  saving and loading, and the assembly of matrix exponentials, also in
  `parallel_expm.py` (`TransModel.v`; for instantaneous events `InstTransModel.v`).  `expm`, `expm_multiply` and
  `connected_components` are parameters with a contract (`TransSpec.v`).
  `save`, `load`, `save_T`, `load_T`, their linear versions and the names of
  their files (`FileModel.v`): a disk maps names to contents tagged with the
  format (plain or gzip), pickling is the identity, reading the wrong format
  raises, `os.path.splitext` is transcribed character by character, directories
  exist.  Networks made from a DataFrame or the path of a csv file
  (`TableModel.v`): the four columns and an index of natural numbers; what
  `pd.read_csv` makes of a file is given.  Not modelled: other columns, progress
  output, the memory options.
* `synth_temp_network.py`: `Individual` and `SynthTempNetwork`
  (`SynthModel.v`), with the priority queue as a list from which a least
  element is taken, exponential variates and choices as streams; the function
  `make_step_block_probs` of the examples at the end of the file
  (`StepModel.v`).  Not modelled: `verbose` output; effects kept after an
  exception; the rest of the examples.
* `state_tracking.py`, `flow_stability.py`: `StateMeta`, `FlowStability`
  (`StateModel.v`).  Networks and clusterings are opaque tokens there.
* `scripts/run_cov_integrals.py` (`CovModel.v`): the grid of intervals,
  `load_trans_mat`, `worker` and the tasks of `main`, for one waiting time.  A
  task is a program over the files of the directory that lists its writes; an
  interruption keeps a prefix of them, a torn write leaves a file that exists
  and cannot be read.  Names of files are in `NamesModel.v`.  Not modelled: command line,
  messages, the pool of processes (C120 shows that the tasks
  are independent).
* `scripts/run_clusterings.py` (`ClustModel.v`): `load_autocov_int`,
  `_compute_clustering_fct`, `_compute_sym_list_clustering_fct` and `worker`
  (`--init_p1` in `InitModel.v`): loading and normalising, components, runs with and
  without a pool, what is saved of them and when.  The variation of information
  of the runs and of static clusterings, and what is saved about components, are in
  `NviModel.v`.  The search for static clusterings is in `StaticRunModel.v`: the
  csr matrix of the exponential is an argument, any one that stores its entries without
  repetition; what is saved of them and when in `StaticFileModel.v`.  Not modelled: command line,
  `--integral_rtol` without `--init_p1` (see the end).  The choice of the files to read is in `NamesModel.v`.
* `find_louvain_clustering(save_progress=True)` for `Clustering`, for `SparseClustering`
  (`SparseProgressModel.v`), and
  `cython_inplace_csr_row_normalize_triu` (`ProgressModel.v`): the matrix is given by its
  entries instead of its CSR arrays.
* `scripts/run_laplacians_transmats.py` (`SliceModel.v`): slices, batches, the
  calls made for a slice, and the files written, with the keyword arguments of
  the methods called.  Names of files are in `NamesModel.v`.  Not modelled: command
  line. What a slice leaves for `run_cov_integrals.py` is in `SlicedModel.v`, `--save_flow_int` in
  `FlowIntModel.v`.
* Functions on used rows and columns (`SmallModel.v`): `sparse_stationary_trans`,
  `sparse_lin_approx`, `csc_row_normalize`, `set_to_ones`,
  `numpy_rebuild_nnz_rowcol`, `compute_parallel_expm`, `_stack_sparse_cols`,
  `create_diag`, `check_nz_intersect_len`, `sparse_outer`,
  `_find_optimal_flow`, `_compute_subsets_connectedness` and the row
  normalisation of `_cython_sparse_stoch_subst.py`; MKL is not modelled.
* `find_spectral_gap` (`GapModel.v`), over the reals; `eigsh` is a relation to
  the eigenvalues closest to zero of a symmetric matrix.
* The steps of `FlowStability` on an actual network (`PipeModel.v`): `time_scale`,
  `lamda`, `set_time_scale`, `compute_laplacian_matrices`,
  `compute_inter_transition_matrices`, `set_flow_clustering` and the matrices
  that `find_louvain_clustering` hands to the search.  The records of finished
  steps are in `StateModel.v`; keyword arguments other than those named in
  `inter_kwargs` and `flow_kwargs` are not modelled.
* `--init_p1` of `scripts/run_clusterings.py` (`InitModel.v`): rounding, completing the triangle, filling
  rows without entries, normalising to the density, and leaving out nodes of probability zero with
  `--separate_comps`. The keys under which matrix and density are stored are not modelled; no code of the
  repository writes them.
* Names of files (`NamesModel.v`): those that the three scripts write and look for, the formats
  `{:.3e}` and `{:06d}`, `float` and `int` on what they print, how the second script finds
  intervals and waiting times in a directory, and how the third selects integrals and static
  adjacency matrices. One directory, and names without the special characters of `format`
  and `glob`; other spellings that `float` and `int` accept are not modelled. How the second
  script finds the number of nodes is in `ListingModel.v`.
* One exponential of a Laplacian over the reals (`ExpModel.v`): the call of `expm`
  in `compute_inter_transition_matrices`, and `compute_subspace_expm`.  This
  shows that the contract of the exponential in `TransSpec.v`, which the theorems
  over the rationals assume, is what the exponential satisfies.

## Wrong programs

seeded/LOG.jsonl has one line per attempt: a definition of the model is edited in a copy, proofs that no
longer compile are admitted one after the other, and `failed` lists the theorems whose own proof stopped
working or that rest on a lemma whose proof did. How to read it:

- A proof that stops working does not show by itself that its statement has become false: a proof can
  break although a repaired one exists. Lines where this is known have a note.
- A line with an empty `failed` is an edit that survived; `tightened` names the theorems that were added or
  strengthened because of it, and the line of the second run follows or is referred to. Survivors without
  tightened theorems have a note that says why the edit does not change what is claimed.
- Until C155 lines were written only when something failed, and a failing lemma or example without a
  failing theorem was listed as `failed`. Those lines were corrected afterwards from the outputs of the
  runs; the survivors that had no line were added at the end, with "Recorded late" in the note. Five
  edits that left a parameter of a section unused gave no result; they were rephrased and run again.

## Where the code disagrees with the properties

Each of these properties has a `_refuted` theorem with a witness, and `_partial`
theorems for what does hold.

| id | property | finding |
|---|---|---|
| C04 | check_integrity accepts exactly the partitions of the node set | The full statement is refuted: clusters containing nodes outside range(num_nodes) are accepted. Soundness is proved for clusters made of nodes of the network, completeness in full. |
| C06 | A failing move_node leaves the partition unchanged | Refuted: moving to a missing cluster raises after the node was removed from its old cluster. Unknown nodes are rejected without effect. |
| C11 | find_louvain_clustering may be restarted from any partition | Refuted with a three node example: the cluster numbers of the initial partition are read as node numbers. Proved: a restart never raises and returns a valid partition. |
| C12 | Louvain terminates within its iteration caps | Refuted by one: n_meta_iter_max+1 levels are performed. Proved: termination with that bound, and fewer than n_sub_iter_max sweeps per level. |
| C19 | jaccard_distance returns the Jaccard distance | Refuted: the function has no return statement and returns None. Proved: the counts it computes are those the distance is made of. |
| C25 | The stored indices may be given in any order | Refuted: __init__ sorts nz_rowcols but does not permute the small matrix. Proved for sorted indices. |
| C26 | set_to_zeroes removes only negligible entries | Refuted: by default signed values are compared, so large negative entries vanish. Proved with use_absolute_value or without negative entries. |
| C28 | SparseAutocovMat queries agree with the matrix it represents | Refuted for index lists with repetitions: PT entries are counted once, outer(p1,p2) entries with multiplicity. Proved for lists without repetition, and get_element for storage without repeated positions. |
| C29 | Sparse move gains equal the dense ones | Refuted for nodes whose CSR row is empty: the diagonal search reads the next row, or outside the arrays. Proved for non-empty rows. |
| C30 | Aggregating a SparseAutocovMat sums its blocks | Refuted: negative block sums are dropped by one algorithm, scalars are replaced by 1/N. Proved for non-negative PT and normalised probabilities. |
| C31 | is_all_zeros is true only for the zero matrix | Refuted: entries that are not stored are ignored and the tolerance is absolute. Proved: the zero matrix is recognised, and a positive answer bounds the entries of a covariance. |
| C35 | Overlapping events of the same pair keep the contact alive | Refuted: with events [0,2] and [1,3] of a pair the pair is disconnected during [2,3). Proved for every list: pairs are connected only while in contact. |
| C36 | Laplacians generate stochastic walks | Refuted: an event of a node with itself counts twice in the degree. Proved for all lists without such events, with any overlaps, index or durations. |
| C37 | Merging overlapping events preserves contact periods | Refuted: [0,10] and [1,2] merge to [0,2]. Proved for every list: merging ends, leaves no overlaps and invents no contact; contacts are preserved exactly when overlapping events start at different times, overlap is transitive and the last to start is the last to end. |
| C40 | Recomputing after changing the window uses the new window | Refuted: the results are cached by lamda only. Proved: they are those of the window in force when lamda was first used. |
| C41 | Delta-encoded inter-transition matrices reload to the originals | Refuted with the default rounding: negative differences are deleted. Proved exact without rounding, and up to the tolerance for the sparse format. |
| C42 | Saving does not change the network in memory | Refuted: saving SparseStochMat matrices with round_zeros rounds those in memory. Proved without rounding, and for the delta format. |
| C46 | The integral autocovariance is a covariance | Refuted with the default tolerance for sparse matrices: deleted entries leave nonzero row sums. Proved without rounding, both directions; symmetry always; C84 bounds the error. |
| C47 | Each integral is attached to the right end time | Refuted for a grid that starts after the flow: the integral starts with the flow. Proved when the grid starts with the flow and a time of the flow separates successive grid times, for the time of the flow before the grid time. |
| C48 | The synthetic simulation records well-formed, non-overlapping contacts | Refuted: negative IDs are accepted and alias rows of the matrices. Proved for all IDs 0 to N-1, non-negative delays, all methods and all draws. |
| C49 | No recorded synthetic event ends after t_end | Refuted: the event that passes t_end is still recorded. Proved for all events but the last. |
| C53 | An analysis in a single time direction can be completed | Refuted: no history with a single direction reaches FINAL, because find_louvain_clustering requires both clusterings to have been assigned. Proved: both directions complete, and a single one does after assigning a placeholder to the other. |
| C54 | Leaving time_scale at its default works | Refuted: None counts as not given, so the step is always refused. Proved: [None] works; C152 shows that its matrices are not found by the next step. |
| C56 | Clustering accepts transition matrices with zero rows | Refuted: a cluster of zero rows becomes a meta node whose row cannot be normalised and the run raises. Proved: that is the only way to fail, and the partition reached is not worse than the singletons. |
| C57 | A network given to the constructor can be analysed | Refuted: only set_temporal_network leaves the INITIAL state. Proved: calling it without arguments and assigning the network afterwards works. |
| C58 | SparseStochMat row normalisation obeys the same rules | Refuted for diag_val = 0: the zero rows outside the stored ones get row_sum on the diagonal. Proved for a non-zero diagonal. |
| C59 | The pure Python fallback computes what the compiled kernels compute | Refuted for row_sum = 0 and for stored zeros outside nz_rowcols. Proved otherwise. |
| C60 | Conversion from a full matrix works for every diagonal value | Refuted for diag_val = 0: the output buffer is too small. Proved for non-zero diag_val. |
| C65 | The sparse Louvain search never ends worse than singletons | Refuted: the absolute tolerance of is_all_zeros puts all nodes in one cluster although singletons are better. Proved whenever is_all_zeros is false; otherwise every stability is bounded by the tolerance. |
| C67 | All implementations of the variation of information agree | Refuted: nvi_parallel adds to a buffer from malloc that is never cleared. Proved for nvi_mat, and for nvi_parallel when the buffer happens to be zero. |
| C68 | The form in which a clustering is given does not matter | Refuted: a dictionary that skips a cluster number leads to an empty set and a ValueError in norm_var_information. Proved for dictionaries without gaps, and in full for norm_mutual_information. |
| C71 | Events of zero duration do not create lasting contacts | Refuted for the order of equal rows an unstable sort may give. Proved when every event's start precedes its end in the grid. |
| C72 | Keeping the original index does not change the merged network | Refuted: index labels are used as positions and unrelated events are dropped. Proved without merging. |
| C73 | Keeping the original index does not change the Laplacians | Refuted: of two successive events of a pair listed in the other order, the start of the second is processed before the end of the first. Proved when events of a pair do not touch. |
| C74 | The durations column is the length of the events | Refuted: merging does not update the column. Proved without merging. |
| C75 | Merging keeps the first contact of a pair | Refuted: [0,2], [0,3], [0,4] of a pair are all dropped. Proved when the first event of the pair starts alone. |
| C77 | compute_transition_matrices honours its options | Refuted: a second call for the same lamda with other options returns the first result. Proved for the first call. |
| C78 | Computing products leaves the inter-event matrices alone | Refuted: with tol the matrices of inter_T are trimmed in place. Proved for tol=None. |
| C80 | Linear approximations use the stationary matrices of the current window | Refuted: the stationary matrices of the first window are reused. Proved when Laplacians are not recomputed after the first linear approximation. |
| C81 | Linear approximations exist for every window | Refuted: a window without steps and use_sparse_stoch appends to a dictionary. Proved otherwise. |
| C89 | A window of time is analysed as asked | Refuted: the times of the whole network are used with the matrices of the window, which gives no integral. Proved without a window. |
| C91 | Two individuals have at most one contact at a time | Refuted: a contact 0->1 does not prevent a contact 1->0. Proved: overlapping contacts have opposite directions. |
| C92 | run can be called again | Refuted: time restarts while the queue still holds old events. Proved: recorded events are kept, and the old contacts still under way are recorded in the second run. |
| C93 | Simulated contacts respect the groups | Refuted: groups are looked up by position in the list, not by ID. Proved for individuals listed in the order of their IDs. |
| C94 | The simulation raises no exception | Refuted for 'block_probs' with a zero row: the normalisation gives NaN. Proved for positive row sums. |
| C96 | States are saved every dt | Refuted: after a long interval states are saved at every event until the counter has caught up. Proved: the k-th saved state is not earlier than k dt, and keys increase. |
| C97 | Saved states agree with the recorded events | Refuted for two events at the same time. Proved for events that started before t, with a converse. |
| C100 | Discrete-time static clustering uses powers | Refuted for integer times that are not a python int (numpy integers, floats): the exponential is used without notice. Proved for python ints. |
| C101 | Static clustering of a directed network uses its stationary density | Refuted: only the modulus of the eigenvalue is checked, so the eigenvector of another eigenvalue of modulus 1 of a periodic network may be used. Proved when the eigenvalue found is 1. With exact arithmetic a result is never wrong: whichever eigenpair is found, the density is stationary or there is an error. |
| C102 | Nodes that are not connected are never clustered together | Refuted when S is declared zero although nodes are not connected (all walkers start in one component): one cluster is returned. Proved for every S that is not declared zero, and without exception for uniform p1. |
| C103 | run_multi_louvain: every result belongs to its seed | Refuted when rnd_seed is among the keyword arguments: it overrides the reported seeds, and all repetitions are equal. Proved without rnd_seed; the number, validity and stabilities of the results are proved always. |
| C104 | Parallel clustering finds what serial clustering finds (dense) | Refuted for num_repeat=0 (ValueError). Proved for at least one repetition. |
| C105 | Parallel clustering finds what serial clustering finds (sparse) | Refuted: the workers use p2 of the clustering instead of that of S, and take PT as symmetric. Proved when PT is declared symmetric and the vectors agree. |
| C106 | find_louvain_clustering(k) clusters the k-th flow integral | Refuted for a grid that starts after the first time: the last integral raises IndexError. Proved for the default grid and for grids of times of the flow starting at its first time. |
| C107 | Repeated calls of find_louvain_clustering | Refuted: a second call returns None whatever its options, also after the first raised an exception and stored nothing. Proved for an index not tried before. |
| C109 | A network saved and loaded again is the same network | Refuted: label_to_node_dict is not saved, and loading a ContTempInstNetwork raises (its constructor does not set the table of a ready events_table). Proved: every other attribute is restored; after merging, durations and node_array are computed from the remaining events. |
| C110 | Choosing the attributes to save and to load | Refuted: a list without events_table or node_to_label_dict gives a file that cannot be loaded. Proved for lists containing both. |
| C111 | Networks saved under different names stay apart | Refuted: names that differ after their last dot (net_0.1, net_0.2) are saved to the same file. Proved for names that differ without their extensions. |
| C112 | A file of inter-event matrices is found again | Refuted: a compressed file named x.pickle is not found, and an older uncompressed file takes precedence. Proved for the other names. |
| C113 | T and T_lin saved and loaded again | Refuted when T has both csr and SparseStochMat values: the file cannot be loaded. Proved when the saved matrices are of one kind. Lists of matrices are refused. |
| C114 | Inter-event matrices of the linear approximation saved and loaded again | Refuted: the default call raises, saving differences without lamda saves only the last lamda, and matrices computed after the differences raise KeyError. Proved for a given lamda with sparse matrices, or with differences computed by the call itself. |
| C117 | A restarted task completes its integrals | Refuted: with both methods (the default) a restarted task raises; without --save_slice_trans the products it needs are missing; a file that was being written is taken for complete. Proved with one method, saved products and interruptions between writes. |
| C119 | The grid has the requested number of steps | Refuted: with fewer intervals than points the script raises; the last intervals are dropped when the step does not divide their number. Proved: the grid is regular, and as documented when num_points divides the number of intervals. |
| C121 | A grid listed by the user | Refuted: with --int_list 0 2 1 3 an interval is counted twice. Proved for lists in increasing order. |
| C125 | Stabilities reported with --separate_comps | Refuted: the terms of the meta nodes are counted and those of single nodes are not. Proved: the difference is the same constant for all runs. |
| C127 | The nodes outside of the largest component stay apart | Refuted: when the stored entries of the aggregated matrix are close to the product of probabilities, all the nodes are put in one cluster. Proved otherwise; the component and the stabilities are always right. |
| C130 | A restarted clustering saves its results | Refuted: after an interruption between the temporary and the final file, no later run saves results. Proved without --save_clustering_before_nvarinf. |
| C131 | --num_slices gives that number of slices | Refuted in double precision (SpecFloat of the standard library): 50 slices of the period from 0 to 10 become 51. Proved with exact numbers; with --slice_length the last slice may pass tend. |
| C133 | The batches share the work | Refuted: the last batch takes all the remaining slices. Proved when the number of batches divides the number of slices. |
| C134 | Laplacians of slices are those of the period | Refuted: when contacts of a pair overlap, a slice finds a contact that the whole computation has interrupted (C35). Proved without overlaps. |
| C137 | The matrices asked for are written | Refuted: verbose is passed to methods that do not take it. Proved: verbose is the only argument refused; whatever the options, only the static adjacency matrices are written. |
| C140 | Outer products of sparse vectors | Refuted: a vector with a single non-zero entry raises with triu=False, a zero vector always raises, and entries stored twice give a wrong product. Proved for distinct stored entries otherwise. |
| C145 | The substitute row normalisation is the compiled one | Refuted: the stored entries are replaced by the sum of their row over row_sum instead of being divided by it. Proved: what it does to each row. Only the tests import the file. |
| C147 | Connectedness of two subsets | Refuted: IndexError for an empty first subset and a second one with two nodes or more. Proved otherwise. |
| C150 | The spectral gap of a graph | Refuted: the complete graph with two nodes has gap 2, the result is -1. The matrix given to eigsh is symmetric exactly for regular graphs; there its eigenvalues are -1 and the non-zero eigenvalues of the Laplacian, so the result is -1 whenever the gap is above 1. Proved for regular graphs with a gap of at most 1. eigsh is any function returning an eigenvalue closest to zero (sigma=0). |
| C151 | Time scales are read back as given | Refuted: the check consumes iterators, which are accepted and read back empty; generators are rejected. Proved for None, numbers and containers. |
| C152 | An analysis clusters one integral per time scale and direction | Refuted: the matrices of the scale None are stored under the rate chosen by the network and looked up under None: KeyError. Proved for positive numbers, composing the models of network and flow integral. |
| C153 | Keyword arguments of compute_inter_transition_matrices | Refuted: time_scale is passed on to a method without such an argument, lamda is looked up under a misspelled name. Proved: lamda=None is as if not given. |
| C154 | Linear approximations can be clustered | Refuted: set_flow_clustering reads inter_T only. Proved: the linear approximations have no influence on it. |
| C155 | Flow clusterings are those of the last call | Refuted: the ValueError for an initial density of the wrong length is caught, the step counts as done and earlier clusterings stay. Proved for densities with one entry per node. |
| C162 | Normalised integrals with a density sum to zero | Refuted: without --integral_rtol (the default) the value for the diagonal of a node without entries is None times a number, a TypeError. Proved with a tolerance between 0 and 1, for files in CSR or CSC format, and without one when every node of positive probability has an entry. |
| C164 | With a density, all nodes can be clustered together | Refuted: the row of a node of probability zero is empty; for the last node the search for its diagonal entry reads after the end of the arrays (C29). Proved when all nodes have positive probability. |
| C165 | Matrices of the first step are found by the second | Refuted: names keep four digits of a waiting time, and the second step takes its waiting times from the names; for 1.2345 it looks for the key 1/1.234 (KeyError). Proved for waiting times with at most four significant digits and names of networks without parts that look like waiting times or intervals. |
| C166 | Intervals and waiting times are read from names of files | Refuted: all files of the directory are read, so that edge_weights.csv raises a ValueError and the intervals of other networks are counted; a network named wild_mice raises a ValueError, and one named int202001 adds an interval. Proved for directories with the files of one network whose name has no part starting with w or like an interval, and waiting times with at most four significant digits. |
| C167 | The integrals of a network are selected | Refuted: the integrals of day_tau_weekly are selected for day; waiting times that agree in four digits share a name. Proved for waiting times with at most four significant digits when no other network starts with the name followed by _tau_w, and the name does not contain temp_integration or pTpint. |
| C168 | Static adjacency matrices of the first step are found by the third | Refuted: the first step writes net_static_adjacency_int000004.pickle and the third reads net_static_A_000004_to_000005.pickle, so no matrix of the first step is ever found. Proved: a file with the name that is read is found, for both directions of time. |
| C170 | Variation of information of the static clusterings | Refuted: with --only_largest_comp the number of nodes passed on is that of the aggregated matrix, one more than the largest component has; different static clusterings into that many clusters count as the same. Proved for the other options, and with the larger divisor for a largest component that misses at most one node. |
| C171 | The components are saved with the clusterings | Refuted: worker assigns the labels to label and saves comp_label, which stays None. Proved: the number of components and the nodes of a largest one are saved. |
| C172 | The progress of a search is recorded | Refuted: if the autocovariance is all zeros the single cluster that is returned is not recorded, the records end with the starting partition. Proved for other autocovariances; a second search on the same object continues the lists of the first. |
| C173 | Normalising an upper triangular matrix | Refuted: T = [[0,1],[0,1]] with the sums 1/2 and 1: the first pass finds the whole sum of row 1 in column 1, empties row 1, and it can not be filled again when row 0 has been scaled; row 1 of the symmetrised matrix sums to 1/2. Proved: every row that is asked for has its sum or has been emptied, rows stay multiples of what they were, and a matrix with the wanted sums is not changed. |
| C174 | Labels of a table of events | Refuted: only the dictionaries are made, the table keeps its labels; with the labels 5 and 7 the network of two nodes has the ids 5 and 7. Proved for tables labelled 0, 1, ...; with all other labels merging, static matrices and Laplacians raise. |
| C175 | Laplacians of a table of events | Refuted: a table is neither sorted nor numbered anew; of two successive events of a pair listed in the other order, the start of the second is processed before the end of the first. Proved for tables in order of time with the index 0, 1, ..., and for any order if events of a pair do not touch. |
| C176 | Tables read from csv files | Refuted: with the default relabel_nodes=True l.188 reads events_table.source_nodes of the path, an AttributeError for every file. Proved for relabel_nodes=False. |
| C177 | Merging overlapping rows of a table | Refuted: index labels are used as positions; with the index 1, 0 the wrong row is dropped, with labels beyond the number of rows an IndexError is raised. Proved for the index 0, 1, ... with the restrictions of C37. |
| C178 | The table of the caller is left as it is | Refuted: no copy is made, and the first round of merging changes ending times in the caller's table. Proved without merging and for rows without overlaps; a column of durations is added in any case. |
| C179 | Failing clusterings are not replaced by older ones | Refuted: a ValueError of FlowIntegralClustering is only logged, the step counts as completed and the entry of an earlier network stays, which find_louvain_clustering then uses. Proved: successful constructions are stored, the other entries stay as they were, and without an older entry find_louvain_clustering does not complete. |
| C180 | Trimmed exponentials are transition matrices | Refuted: the largest entry is that of the whole matrix, and with a ratio below the number of nodes a row can lose all its entries; it then sums to 0. Proved: exactly the entries below the threshold are deleted, rows with an entry left sum to 1, and with a ratio of at least the number of nodes the result is a transition matrix. |
| C181 | thresh_ratio of the exponential of a Laplacian | Refuted: with fewer than 1000 nodes in use, or when they are connected, thresh_ratio (and normalize_rows) is ignored also with dense_expm=False. Proved for larger networks with several components; otherwise the exponential itself is returned. |
| C182 | Covariance of returning walks | Refuted: 1/pt[k] raises ZeroDivisionError when some node is not reached. Proved otherwise. |
| C183 | Counting the entries of a sparse product | Refuted: with unsorted indices pairs are missed, and the count can be smaller than the number of nonzero entries. Proved for sorted indices; in any case nothing is counted that is not there. |
| C184 | Only finished slices are left out | Refuted: if the transition matrices of a slice exist the slice is left out although the matrices between events were asked for and are missing; and if only one of the two kinds of matrices is asked for, a complete slice is not left out. Proved: a slice that is left out has all transition matrices asked for, and all files unless both sorts of files are asked for; a complete slice is left out if both kinds are asked for. |
| C188 | The moving of nodes stops at a local optimum | Refuted: steps that gain nothing are made (delta_r >= delta_r_best) and count as no gain, so a last sweep can move a node away and leave others with a better cluster. Proved: every visit makes the best step; in the last sweep no visited node could gain more than the threshold; without steps of zero gain a strict local optimum is reached. |
| C190 | Clusterings of the wrong direction become None | Refuted: a clustering of the other direction raises AssertionError (the docstring says that None is set and a warning issued); the object stays as it was. Proved for clusterings of the right direction and for other objects. |
| C196 | The three groups of the step example meet in turn | Refuted: the documentation of make_step_block_probs names the two lengths the wrong way round, the exchanging steps have length deltat2. Proved: the schedule with deltat1 for the steps within the groups, and the simulation. |
| C197 | Nodes that nothing connects are never put together | Refuted: with 10000 nodes or more the integral of two separate halves, each perfectly mixed, is within the absolute tolerance 1e-8 of is_all_zeros and all nodes are put into one cluster. Proved: when is_all_zeros is false, and for the uniform density on fewer than 10000 nodes in any case. Dense matrices: proved when the matrix is not declared zero, and for the uniform density always (see also C102). |
| C198 | The order in which the directory is listed does not matter | Refuted: with the matrices of two networks in one directory the first file listed decides on the number of nodes; a file that is not a pickle makes the script fail if it is listed before all matrices. Proved: for directories of pickles whose matrices agree on the number of nodes, such as those that the first step leaves. |
| C199 | At the end of a search no two clusters gain by being merged | Refuted: moves that gain nothing are made and not counted (delta_r >= delta_r_best), so the only sweep of the last level can end with clusters that gain by being merged; the witness is a symmetric walk on five nodes. Proved: when no merge is tied (each loses, or gains more than the threshold), any two clusters of the result lose by being merged. |
| C200 | Transition matrices can be computed over any number of steps | Refuted: each product is row normalised, which turns its index arrays into 64-bit ones, and the compiled stoch_mat_add takes 32-bit arrays only; so the third factor (the second with a tolerance) raises ValueError. Proved: the products are right with the fallback kernels, for one or two steps, and for any number of steps with force_csr. With a tolerance, the matrix of the first step holds the entries above the tolerance relative to the largest entry of the block (of the whole matrix with force_csr), divided by what remains of the row. |
| C201 | Cython is optional for sparse clusterings | Refuted: the fallback reads idx.shape of an array.array, has no compute_delta_S_moveout and does not implement the aggregation; it raises as soon as a node has a neighbour, and always when the densities are vectors. Proved: when it returns, the result is that of the compiled kernels. |
| C202 | Cutting a period into slices does not change the integrals | Refuted: when two events of a pair overlap, the end of the first interrupts the second one in a slice that holds both, but not in a slice that starts later (as in C134), and the integrals over the same period differ. Proved: for networks without such events the integrals do not depend on the slices and are those of FlowIntegralClustering, also after run_clusterings.py has loaded and normalised them, and with the exponentials all of them are computed. |
| C204 | --save_flow_int adds the integrals of the slices to what is saved | Refuted: the script reads the attribute I of FlowIntegralClustering, which the class does not set (it sets I_list), and the exception leaves the transition matrix unsaved as well. Proved: the list I_list of the object made by the script holds the integral of the slice in both directions of time, and the transition matrix kept would be the same as without the option. |
| C206 | Static clusterings of a period | Refuted: the aggregation keeps no entry for a node without contacts, and when it is the last one the next level reads outside the arrays (two triangles and an isolated node). Proved: for networks in which every node has a contact. |
| C207 | Static clusterings that were asked for are saved | Refuted: when the file of the aggregated network is missing, the results are saved without static clusterings, and later runs skip the file because results exist; a temporary file left by an interruption blocks them as well. Proved: a run that finds neither results nor a temporary file saves all that was asked for; what is saved was computed, and the other clusterings do not depend on the option. |
| C211 | The progress of a sparse search is recorded | Refuted: if the matrix passes for zero (is_all_zeros) the single cluster that is returned is not recorded, the records end with the starting partition. Proved for other matrices that SparseClustering can use; a second search on the same object continues the lists of the first. |
| C216 | The unit and the origin of time do not matter for instantaneous events | Refuted: the events of the last time end one unit of time later (utimes[-1]+1), whatever the unit is, so the length of the last interval depends on the unit, and with it the weight of the last step in a flow integral. Proved: the nodes, the Laplacians of the whole time and all times but the last one follow the unit, and any other map that keeps the order of the times; with another origin only, everything does. |
| C218 | The matrices between instantaneous events do not depend on the unit of time | Refuted: the default rate is one over the median time between events, while every step takes one unit (fix_tau_k=True), so that with the default rate the matrices depend on the unit. Proved: with a given rate they, and their linear approximations, depend on the order of the times only. |

Found while reading, in code that is not modelled or outside of what the
properties speak about:

* `scripts/run_laplacians_transmats.py` takes all files as present when the transition matrices of the
  slices exist, also when the inter-event matrices are missing or truncated.
  File names contain the waiting time with three decimals, so close waiting
  times share files.
* `scripts/run_cov_integrals.py` reads the waiting time back from that name and
  uses `1/tau_w` as a key, which raises `KeyError` when it was rounded.  Giving
  both `--only_expm` and `--only_lin` computes nothing.
* `scripts/run_clusterings.py`: the saved integral is a COO matrix, which
  `set_to_zeroes` refuses, so every run with `--integral_rtol` fails (caught);
  compressed integrals are not recognised; the label of the component in the
  names of files is never set; without `--init_p1` the files of `PTforw` and
  `PTback` are picked up too.
* Scripts use the attribute `.I` of clusterings, which does not exist.
* `FlowStability.compute_inter_transition_matrices` misspells keyword arguments
  of the method it calls.
* `_cython_subst.py` does not provide all the names that are imported from the
  compiled module (C201).
* A test passes 64-bit indices to the compiled `sparse_stoch_from_full_csr`,
  which takes 32-bit ones (`tests/test_sparse_stoch_matrix.py`, see C200).
* `sort_clusters` with `thresh_ratio > 1` does not end.
* `print_num_loops` is passed by position where `verbose` is expected in the
  search for clusters.
* `compute_stationary_transition` gives an `ndarray` where later steps expect a
  sparse matrix.
* `ContTempNetwork` keeps a reference to the caller's events table and adds the
  column of durations to it (see also C178).
* `csc_row_normalize` changes its argument when that is a csr matrix already:
  `tocsr` does not copy.
* `ndarray + SparseStochMat` and `ndarray @ SparseStochMat` never reach
  `__radd__` and `__rmatmul__`: numpy looks at each element first.
