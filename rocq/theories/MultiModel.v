(** Model of repeated searches: the constructors of [Clustering] and [SparseClustering],
    [run_multi_louvain] and [FlowIntegralClustering.find_louvain_clustering] of
    /repo/src/flowstab/network_clustering.py, and [compute_parallel_clustering] of
    /repo/src/flowstab/parallel_clustering.py.

    Simplifications: types of arguments are not checked; seeds are numbers, and a
    RandomState(seed) is the function [rng seed] giving the order of the nodes in each sweep
    of each level; [Pool.map] is [map]: the workers share nothing but the arrays they get from
    the initialiser; an exception is [None]; initial partitions are given as a list of
    clusters, not as a dictionary. *)
From Verif Require Import Base PartitionModel LouvainModel SparseModel AutocovModel SparseLouvainModel FlowModel StaticModel.
Local Open Scope bool_scope.

(** ** Objects *)
Record dense := mkDense { d_n : nat; d_p1 : nat -> num; d_p2 : nat -> num; d_T : mat; d_S : mat }.
Record sparse := mkSparse { s_p1 : list num; s_p2 : list num; s_A : autocov }.

(** l.398-399: [S[np.where(np.abs(S)<S_threshold)] = 0] *)
Definition trimmed (S_threshold : option num) (M : mat) : mat := fun i j =>
  match S_threshold with Some x => if qltb (qabs (M i j)) x then 0%num else M i j | None => M i j end.
(** l.339-399, for [n] nodes: the matrix T, if not given, connects everything; [None] is the
    AssertionError, or the ValueError if neither T nor S is given *)
Definition dense_init (n : nat) (p1 p2 : option (nat -> num)) (T M : option mat) (S_threshold : option num) : option dense :=
  match T, M with
  | None, None => None
  | _, _ =>
      let T' := match T with Some T => T | None => fun _ _ => (1 / qn n)%num end in
      if match T with Some T => rows_ok n T | None => true end then
        let q1 := match p1 with Some p => p | None => fun _ => (1 / qn n)%num end in
        let q2 := match p2 with Some p => p | None => vec_mat n q1 T' end in
        Some (mkDense n q1 q2 T' (trimmed S_threshold (match M with Some M => M | None => compute_S q1 q2 T' end)))
      else None
  end.
(** l.1533-1581, with S given and the vector p1; T, if not given, is S.PT *)
Definition sparse_init (p1 : list num) (p2 : option (list num)) (T : option csr) (A0 : autocov) : option sparse :=
  let T' := match T with Some T => T | None => a_PT A0 end in
  let n := csr_size T' in
  if n =? a_size A0 then
    match ac_copy A0 with
    | Some A => Some (mkSparse p1 (match p2 with Some p => p
                                   | None => map (fun j => sumN n (fun i => nth i p1 0 * value T' i j)%num) (seq 0 n) end) A)
    | None => None
    end
  else None.

(** ** Searches *)
(** arguments of [find_louvain_clustering] *)
Record options := mkOptions { o_thr : num; o_meta : nat; o_sub : nat; o_seed : option nat }.
(** [np.finfo(float).eps] *)
Definition eps : num := qf 1 4503599627370496.
(** number of loops, clusters and [compute_stability()] *)
Definition result := (nat * list (list nat) * num)%type.

Section Multi.
Context (setord : list nat -> list nat) (rng : nat -> nat -> nat -> nat -> list nat).

(** the state of the generator of an object made with [seed]: [rnd_seed] overrides, l.905-906 *)
Definition orders_used (opt : options) (seed : nat) : nat -> nat -> nat -> list nat :=
  rng (match o_seed opt with Some s => s | None => seed end).
Definition dense_search (c : dense) (opt : options) (seed : nat) (p : partition) : option (nat * partition) :=
  match find_louvain setord (orders_used opt seed) (d_T c) (d_S c) (o_thr opt) (o_meta opt) (o_sub opt) p with
  | LDone q k => Some (k, q)
  | _ => None
  end.
Definition sparse_search (c : sparse) (opt : options) (seed : nat) (p : partition) : option (nat * partition) :=
  match sp_find_louvain setord (orders_used opt seed) (s_A c) (o_thr opt) (o_meta opt) (o_sub opt) p with
  | LDone q k => Some (k, q)
  | _ => None
  end.

(** body of the loop of [run_multi_louvain], l.2533-2545: a copy, searched from singletons *)
Definition dense_repetition (c : dense) (opt : options) (seed : nat) : option result :=
  match dense_init (d_n c) (Some (d_p1 c)) (Some (d_p2 c)) (Some (d_T c)) (Some (d_S c)) None with
  | None => None
  | Some c' =>
      match dense_search c' opt seed (part_default (d_n c')) with
      | Some (k, q) => Some (k, cluster_list q, compute_stability (d_S c') q)
      | None => None
      end
  end.
(** the same with the T of the object; what T is does not matter once S is given *)
Definition sparse_repetition (c : sparse) (opt : options) (seed : nat) : option result :=
  match sparse_init (s_p1 c) (Some (s_p2 c)) None (s_A c) with
  | None => None
  | Some c' =>
      match sparse_search c' opt seed (part_default (a_size (s_A c'))) with
      | Some (k, q) => Some (k, cluster_list q, sp_stability (s_A c') q)
      | None => None
      end
  end.

(** [run_multi_louvain], l.2503-2548, for the seeds drawn by [n_random_seeds] *)
Record multi := mkMulti { m_loops : list nat; m_clusters : list (list (list nat)); m_stabilities : list num; m_seeds : list nat }.
Definition run_multi (repetition : nat -> option result) (seeds : list nat) : option multi :=
  match all_some (map repetition seeds) with
  | Some l => Some (mkMulti (map (fun r => fst (fst r)) l) (map (fun r => snd (fst r)) l) (map snd l) seeds)
  | None => None
  end.

(** ** Parallel searches, parallel_clustering.py l.37-198 *)
(** [M.flat], and [reshape((N,N))] *)
Definition flat (n : nat) (M : mat) : list num := flat_map (fun i => map (M i) (seq 0 n)) (seq 0 n).
Definition reshape (n : nat) (l : list num) : mat := fun i j => nth (i * n + j) l 0%num.
Definition vector (n : nat) (p : nat -> num) : list num := map p (seq 0 n).
Definition of_vector (l : list num) : nat -> num := fun i => nth i l 0%num.
(** [zip( *results )] unpacked into three tuples fails for no results, l.64-66 and l.95-97 *)
Definition unzip3 (l : list (list (list nat) * num * nat)) : option (list (list (list nat)) * list num * list nat) :=
  match l with
  | [] => None
  | _ => Some (map (fun r => fst (fst r)) l, map (fun r => snd (fst r)) l, map snd l)
  end.
(** options of the workers, l.161-164: default threshold and no seed *)
Definition worker_options (n_meta n_sub : nat) : options := mkOptions eps n_meta n_sub None.
(** [_init_sub_worker], l.109-118, and [_compute_sym_clustering_fct], l.144-170 *)
Definition dense_worker (n : nat) (Sraw Traw p1raw p2raw : list num) (n_meta n_sub seed : nat) : option (list (list nat) * num * nat) :=
  match dense_init n (Some (of_vector p1raw)) (Some (of_vector p2raw)) (Some (reshape n Traw)) (Some (reshape n Sraw)) None with
  | None => None
  | Some c =>
      match dense_search c (worker_options n_meta n_sub) seed (part_default n) with
      | Some (k, q) => Some (cluster_list q, compute_stability (d_S c) q, seed)
      | None => None
      end
  end.
Definition parallel_dense (c : dense) (n_meta n_sub : nat) (seeds : list nat) : option (list (list (list nat)) * list num * list nat) :=
  let n := d_n c in
  match all_some (map (dense_worker n (flat n (d_S c)) (flat n (d_T c)) (vector n (d_p1 c)) (vector n (d_p2 c)) n_meta n_sub) seeds) with
  | Some l => unzip3 l
  | None => None
  end.
(** [_init_sub_worker_sparse], l.121-140, and [_compute_sym_sparse_clustering_fct], l.172-198: PT is
    said to be symmetric, p1 and p2 are those of the clustering *)
Definition sparse_worker (PT : csr) (p1 p2 : list num) (n_meta n_sub seed : nat) : option (list (list nat) * num * nat) :=
  match ac_init PT (PVec p1 p2) true with
  | None => None
  | Some A =>
      match sparse_init p1 (Some p2) (Some (a_PT A)) A with
      | None => None
      | Some c =>
          match sparse_search c (worker_options n_meta n_sub) seed (part_default (a_size (s_A c))) with
          | Some (k, q) => Some (cluster_list q, sp_stability (s_A c) q, seed)
          | None => None
          end
      end
  end.
Definition parallel_sparse (c : sparse) (n_meta n_sub : nat) (seeds : list nat) : option (list (list (list nat)) * list num * list nat) :=
  match all_some (map (sparse_worker (a_PT (s_A c)) (s_p1 c) (s_p2 c) n_meta n_sub) seeds) with
  | Some l => unzip3 l
  | None => None
  end.

(** ** [FlowIntegralClustering.find_louvain_clustering], l.2119-2149, dense, for k >= 0
    [fs_clustering]: the keys of [self.clustering]; [fs_partition]: [self.partition] *)
Record fstate := mkF { fs_clustering : list nat; fs_partition : list (nat * partition) }.
Inductive fresult := Loops (n : nat) | Nothing | Exception.
(** [l[k-1]] for a python list *)
Definition at_before {A} (l : list A) (k : nat) : option A :=
  match k with 0 => nth_error l (length l - 1) | S m => nth_error l m end.
Definition flow_find (n : nat) (f : flow) (k : nat) (opt : options) (seed : nat) (cl : option (list (list nat)))
    (S_threshold : option num) (st : fstate) : fstate * fresult :=
  if memb k (fs_clustering st) then (st, Nothing)
  else
    match nth_error (f_k f) (S k), nth_error (f_I f) k with
    | Some e, Some M =>
        match at_before (f_T f) e with
        | None => (st, Exception)
        | Some T =>
            match dense_init n (Some (f_p f)) None (Some T) (Some M) S_threshold with
            | None => (st, Exception)
            | Some c =>
                let st1 := mkF (k :: fs_clustering st) (fs_partition st) in
                let p0 := match cl with Some l => part_of_list n l | None => part_default n end in
                match dense_search c opt seed p0 with
                | None => (st1, Exception)
                | Some (m, q) => (mkF (k :: fs_clustering st) ((k, q) :: fs_partition st), Loops m)
                end
            end
        end
    | _, _ => (st, Exception)
    end.
End Multi.
