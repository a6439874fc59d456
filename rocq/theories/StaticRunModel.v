(** Model of the static clusterings of /repo/src/flowstab/scripts/run_clusterings.py
    (--compute_static_clustering): [compute_static_clustering_fct], l.600-620, and its calls in
    [worker], l.690-694 and l.812-825; and of the SparseClustering that [static_clustering] returns
    for a csr matrix, /repo/src/flowstab/network_clustering.py l.2433-2489.

    Simplifications: the pickled matrix, a csr matrix, is the function giving its entries; the
    csr matrix of the exponential is an argument, [expm] ([sparse_lapl_expm(...).tocsr()], C166);
    the workers of a pool receive copies of the same matrix, so that a pool changes nothing. *)
From Verif Require Import Base PartitionModel LouvainModel SparseModel AutocovModel SparseLouvainModel EventsModel TransModel
  MultiModel ClustModel StaticModel.

(** [(A + A.T)/2], l.694 *)
Definition symmetrised (A : mat) : mat := fun i j => ((A i j + A j i) / qn 2)%num.

Section StaticRun.
Context (n : nat) (eig : mat -> eigenpair) (expm : num -> mat -> csr).
Context (setord : list nat -> list nat) (rng : nat -> nat -> nat -> nat -> list nat) (n_meta n_sub : nat).

(** [static_clustering(A, rnd_seed=seed)] for a csr matrix: t is 1 and all switches are off; the
    matrix of the object is [from_T(T, pi, pi)] (SparseClustering, network_clustering.py
    l.1570-1572 and l.1623-1633) *)
Definition static_sparse (A : mat) : option sparse :=
  match stationary n eig false A with
  | None => None
  | Some p =>
      let pi := map p (seq 0 n) in
      match from_T (expm (time_value (PyInt 1)) (mminus ident (Tstat n A))) (Some pi) (Some pi) with
      | None => None
      | Some M => Some (mkSparse pi pi M)
      end
  end.
(** [compute_static_clustering_fct], l.600-620 *)
Definition static_run (A : mat) (seed : nat) : option (list (list nat) * num * nat) :=
  match static_sparse A with
  | None => None
  | Some c =>
      match sparse_search setord rng c (worker_options n_meta n_sub) seed (part_default (a_size (s_A c))) with
      | Some (_, q) => Some (cluster_list q, sp_stability (s_A c) q, seed)
      | None => None
      end
  end.
(** l.690-694 and l.812-825, for the matrix [saved] in the file *)
Definition static_runs (saved : mat) (seeds : list nat) : option (list (list (list nat)) * list num * list nat) :=
  match all_some (map (static_run (symmetrised saved)) seeds) with Some l => unzip3 l | None => None end.
(** what is kept of the runs, l.908-919 *)
Definition static_summary (saved : mat) (seeds : list nat) : option summary := option_map summarise (static_runs saved seeds).
End StaticRun.
