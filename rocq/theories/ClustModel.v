(** Model of the script /repo/src/flowstab/scripts/run_clusterings.py, without --init_p1:
    [load_autocov_int], l.226-449, [_compute_clustering_fct], l.523-550,
    [_compute_sym_list_clustering_fct], l.552-603, and [worker], l.653-974, without the static
    clusterings and the variation of information.

    Simplifications: the saved integral is the function giving its entries, and a matrix made
    by adding or scaling sparse matrices stores its non-zero entries by increasing column;
    [connected_components] is a parameter giving the label of each node; numbers are exact;
    --integral_rtol is not given; a python set of nodes is a list; messages are left out. The
    memory shared with the pool of --nproc_clustering holds the arrays of the matrix, which is
    built again from them. *)
From Verif Require Import Base PartitionModel LouvainModel SparseModel AutocovModel SparseLouvainModel EventsModel TransModel MultiModel.
Local Open Scope bool_scope.

(** ** Loading an integral *)
(** the CSR arrays of a matrix with these entries *)
Definition csr_of (n : nat) (M : mat) : csr :=
  of_rows (map (fun i => map (fun j => (j, M i j)) (filter (fun j => negb (qeqb (M i j) 0%num)) (seq 0 n))) (seq 0 n)).
(** [ITPT.data *= (1/int_time)], [ITPT + ITPT.T - diags(ITPT.diagonal())] and the products by
    diag(p1), l.254-264 *)
Definition full_integral (n : nat) (A : mat) (t : num) : mat := fun i j =>
  (1 / qn n * (A i j * (1 / t) + A j i * (1 / t) - (if i =? j then A i j * (1 / t) else 0)) * (1 / qn n))%num.
(** [inplace_csr_row_normalize(ITPT, 1/num_nodes)], l.281 *)
Definition row_normalise_to (n : nat) (x : num) (M : mat) : mat := fun i j =>
  let s := sumN n (M i) in if qeqb s 0%num then M i j else (M i j / (s / x))%num.
(** one iteration, l.281-282 *)
Definition norm_step (n : nat) (M : mat) : mat :=
  let N := row_normalise_to n (1 / qn n)%num M in fun i j => ((N i j + N j i) / 2)%num.
Fixpoint norm_iter (n k : nat) (M : mat) : mat := match k with 0 => M | S k => norm_iter n k (norm_step n M) end.
(** l.226-298; [norm]: [num_norm_iter], or 0 with --not_normalize_cov_mat *)
Definition load_autocov (n norm : nat) (A : mat) (t : num) : option autocov :=
  ac_init (csr_of n (norm_iter n norm (full_integral n A t))) (PScal (1 / qn n) (1 / qn n)) true.

(** ** Components *)
(** [np.bincount(label)] and [np.unique(label)] *)
Definition count_label (label : list nat) (c : nat) : nat := length (filter (Nat.eqb c) label).
Definition bincount (label : list nat) : list nat := map (count_label label) (seq 0 (S (List.list_max label))).
(** [np.where(b == b.max())[0][0]] *)
Definition first_max (b : list nat) : nat :=
  match find (fun c => nth c b 0 =? List.list_max b) (seq 0 (length b)) with Some c => c | None => 0 end.
(** [(label == c).nonzero()[0]] and [(~mask).nonzero()[0]] *)
Definition nodes_of (label : list nat) (c : nat) : list nat := filter (fun i => nth i label 0 =? c) (seq 0 (length label)).
Definition nodes_outside (label : list nat) (c : nat) : list nat := filter (fun i => negb (nth i label 0 =? c)) (seq 0 (length label)).
(** [idx_list] of l.399-400 and l.432-433: the nodes outside of the component in one meta node *)
Definition idx_list (label : list nat) (c : nat) : list (list nat) := nodes_outside label c :: map (fun i => [i]) (nodes_of label c).
(** --only_largest_comp, l.393-411: the nodes and the aggregated matrix *)
Definition largest_comp (label : list nat) : nat := first_max (bincount label).
Definition load_largest (label : list nat) (A : autocov) : option (list nat * autocov) :=
  match ac_aggregate A (idx_list label (largest_comp label)) with
  | Some B => Some (nodes_of label (largest_comp label), B)
  | None => None
  end.
(** --separate_comps, l.412-443: aggregated matrix and nodes of the components, singletons *)
Definition components (label : list nat) : list nat := unique label.
Definition is_single (label : list nat) (c : nat) : bool := length (nodes_of label c) =? 1.
Definition load_separate (label : list nat) (A : autocov) : option (list (autocov * list nat) * list nat) :=
  match all_some (map (fun c => match ac_aggregate A (idx_list label c) with
                                | Some B => Some (B, nodes_of label c)
                                | None => None
                                end) (filter (fun c => negb (is_single label c)) (components label))) with
  | Some l => Some (l, flat_map (nodes_of label) (filter (is_single label) (components label)))
  | None => None
  end.

(** ** Clustering *)
(** the vectors p1 and p2 of an object *)
Definition vectors_of (A : autocov) : list num * list num :=
  match a_p A with PScal x y => (repeat x (a_size A), repeat y (a_size A)) | PVec x y => (x, y) end.

Section Runs.
Context (setord : list nat -> list nat) (rng : nat -> nat -> nat -> nat -> list nat) (n_meta n_sub : nat).

(** the object and the search, l.533-543 and l.570-580 *)
Definition search (A : autocov) (seed : nat) : option (sparse * partition) :=
  match sparse_init (fst (vectors_of A)) (Some (snd (vectors_of A))) (Some (a_PT A)) A with
  | None => None
  | Some c =>
      match sparse_search setord rng c (worker_options n_meta n_sub) seed (part_default (a_size (s_A c))) with
      | Some (_, q) => Some (c, q)
      | None => None
      end
  end.
(** [_compute_clustering_fct], l.523-550 *)
Definition run_whole (A : autocov) (seed : nat) : option (list (list nat) * num * nat) :=
  match search A seed with
  | Some (c, q) => Some (cluster_list q, sp_stability (s_A c) q, seed)
  | None => None
  end.
(** [node_map], l.590: [None] is the KeyError *)
Definition node_map (nodes : list nat) (i : nat) : option nat := match i with 0 => None | S i => nth_error nodes i end.
(** one component, l.569-595; [None] is an exception of the search, the AssertionError or a
    KeyError *)
Definition run_comp (A : autocov) (nodes : list nat) (seed : nat) : option (list (list nat) * num) :=
  match search A seed with
  | None => None
  | Some (c, q) =>
      if get_num_clusters q false =? 1 then Some ([nodes], 0%num)
      else match cluster_list q with
           | [] => None
           | first :: rest =>
               if (length first =? 1) && (match dget (n2c q) 0 with Some 0 => true | _ => false end) then
                 match all_some (map (fun c => all_some (map (node_map nodes) c)) rest) with
                 | Some l => Some (l, sp_stability (s_A c) q)
                 | None => None
                 end
               else None
           end
  end.
(** [_compute_sym_list_clustering_fct], l.552-603 *)
Definition run_separate (comps : list (autocov * list nat)) (singletons : list nat) (seed : nat) : option (list (list nat) * num * nat) :=
  match all_some (map (fun x => run_comp (fst x) (snd x) seed) comps) with
  | Some l => Some (concat (map fst l) ++ map (fun x => [x]) singletons, sumL snd l, seed)
  | None => None
  end.

(** the objects built by the workers of the pool from the shared arrays, l.470-520 *)
Definition shared (p1 p2 : list num) (A : autocov) : option autocov := ac_init (a_PT A) (PVec p1 p2) true.
Definition shared_list (comps : list (autocov * list nat)) : option (list (autocov * list nat)) :=
  all_some (map (fun x => match shared (fst (vectors_of (fst x))) (snd (vectors_of (fst x))) (fst x) with
                          | Some B => Some (B, snd x) | None => None end) comps).

Inductive comps_option := AllNodes | OnlyLargest | SeparateComps.
(** the runs of [worker], l.745-818; [pool]: --nproc_clustering is larger than 1. No runs:
    ValueError of the unpacking *)
Definition all_runs (o : comps_option) (pool : bool) (label : list nat) (A : autocov) (seeds : list nat)
    : option (list (list (list nat)) * list num * list nat) :=
  match o with
  | AllNodes | OnlyLargest =>
      match (match o with OnlyLargest => match load_largest label A with Some (_, B) => Some B | None => None end | _ => Some A end) with
      | None => None
      | Some B =>
          match (if pool then shared (fst (vectors_of B)) (snd (vectors_of B)) B else Some B) with
          | None => None
          | Some B => match all_some (map (run_whole B) seeds) with Some l => unzip3 l | None => None end
          end
      end
  | SeparateComps =>
      match load_separate label A with
      | None => None
      | Some (comps, singletons) =>
          match (if pool then shared_list comps else Some comps) with
          | None => None
          | Some comps => match all_some (map (run_separate comps singletons) seeds) with Some l => unzip3 l | None => None end
          end
      end
  end.
End Runs.

(** ** What is saved of the runs, l.838-848 *)
(** [sorted] of integers, and of tuples of integers *)
Fixpoint lex_leb (a b : list nat) : bool :=
  match a, b with
  | [], _ => true
  | _ :: _, [] => false
  | x :: a, y :: b => (x <? y) || ((x =? y) && lex_leb a b)
  end.
Fixpoint insert_by {A} (leb : A -> A -> bool) (x : A) (l : list A) : list A :=
  match l with [] => [x] | y :: r => if leb x y then x :: l else y :: insert_by leb x r end.
Definition sort_by {A} (leb : A -> A -> bool) (l : list A) : list A := fold_right (insert_by leb) [] l.
(** [tuple(sorted([tuple(sorted(c)) for c in clust]))] *)
Definition canonical (cl : list (list nat)) : list (list nat) := sort_by lex_leb (map (sort_by Nat.leb) cl).
(** [Counter] *)
Fixpoint list_eqb {A} (eqb : A -> A -> bool) (a b : list A) : bool :=
  match a, b with [], [] => true | x :: a, y :: b => eqb x y && list_eqb eqb a b | _, _ => false end.
Definition tuple_eqb : list (list nat) -> list (list nat) -> bool := list_eqb (list_eqb Nat.eqb).
Fixpoint count_one (k : list (list nat)) (l : list (list (list nat) * nat)) : list (list (list nat) * nat) :=
  match l with
  | [] => [(k, 1)]
  | (k', m) :: r => if tuple_eqb k' k then (k', S m) :: r else (k', m) :: count_one k r
  end.
Definition counter (l : list (list (list nat))) : list (list (list nat) * nat) := fold_left (fun c k => count_one k c) l [].
Definition clust_counter (clusters : list (list (list nat))) : list (list (list nat) * nat) := counter (map canonical clusters).
(** [np.argmax] *)
Fixpoint argmax_from (i best : nat) (x : num) (l : list num) : nat :=
  match l with [] => best | y :: r => if qltb x y then argmax_from (S i) i y r else argmax_from (S i) best x r end.
Definition argmax (l : list num) : nat := match l with [] => 0 | x :: r => argmax_from 1 0 x r end.
Definition max_of (l : list num) : num := match l with [] => 0%num | x :: r => fold_left (fun m y => if qltb m y then y else m) r x end.
Definition mean (l : list num) : num := (sumL (fun x => x) l / qn (length l))%num.
Record summary := mkSummary { r_counter : list (list (list nat) * nat); r_stabilities : list num; r_seeds : list nat;
  r_best : list (list nat); r_best_stab : num; r_avg_stab : num; r_avg_nclust : num }.
Definition summarise (r : list (list (list nat)) * list num * list nat) : summary :=
  let '(clusters, stabs, seeds) := r in
  mkSummary (clust_counter clusters) stabs seeds (nth (argmax stabs) clusters []) (max_of stabs) (mean stabs)
    (mean (map (fun c => qn (length c)) clusters)).

(** ** Files, l.657-676, l.714-743, l.850-868, l.960-962: "clusters_..." and "tmpclusters_..."
    for one integral *)
Record results := mkResults { f_saved : option summary; f_temp : option summary }.
Inductive effect := SaveTemp (s : summary) | Save (s : summary).
Definition apply (d : results) (e : effect) : results :=
  match e with SaveTemp s => mkResults (f_saved d) (Some s) | Save s => mkResults (Some s) (f_temp d) end.
(** What [worker] writes: [computed] is the summary of the runs it makes, [None] if they raise.
    After the temporary file was loaded [sym_clusters] has no value, so that l.877 raises
    UnboundLocalError: nothing is written. *)
Definition worker (save_before_nvarinf : bool) (computed : option summary) (d : results) : list effect :=
  match f_saved d with
  | Some _ => []
  | None =>
      match f_temp d with
      | Some _ => []
      | None => match computed with
                | Some s => (if save_before_nvarinf then [SaveTemp s] else []) ++ [Save s]
                | None => []
                end
      end
  end.
