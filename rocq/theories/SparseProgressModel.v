(** Model of the search on a SparseClustering that records its progress ([save_progress=True] of
    [find_louvain_clustering], /repo/src/flowstab/network_clustering.py). SparseClustering inherits
    [_save_progress] and the loop, and has its own [compute_stability]. *)
From Verif Require Import Base PartitionModel LouvainModel SparseModel AutocovModel SparseLouvainModel ProgressModel.
Local Open Scope bool_scope.

(** [_save_progress], l.1407-1416, with [compute_stability] and [_compute_clustered_autocov] of
    SparseClustering, l.1636-1674; as in ProgressModel.v the two lists are one list of pairs *)
Definition sp_save_progress (A : autocov) (p : partition) (rec : progress) : progress := rec ++ [(p, sp_stability A p)].

(** the loop of l.929-990, as [sp_meta_loop], with the record made at the end of each turn
    (l.976-977), after the aggregation, which may raise *)
Fixpoint sp_meta_loop_saving (fuel : nat) (setord : list nat -> list nat)
  (orders : nat -> nat -> nat -> list nat)
  (A0 : autocov) (thr : num) (n_meta_iter_max n_sub_iter_max : nat)
  (p : partition) (mA : autocov) (mp : partition)
  (delta : num) (n_meta : nat) (stop : bool) (rec : progress) : lres * progress :=
  if negb (qleb delta thr || stop || (n_meta_iter_max <? n_meta)) then
    match fuel with
    | 0 => (LFuel, rec)
    | Datatypes.S fuel' =>
        let n_meta' := Datatypes.S n_meta in
        match sp_move_nodes setord mA (fun k => orders n_meta' k (num_nodes mp)) thr n_sub_iter_max mp with
        | MDone mp' delta' _ =>
            match updated_partition p mp' with
            | None => (LRaised p, rec)
            | Some p' =>
                if all_singletons p' || (n_meta_iter_max <? n_meta') || qleb delta' thr then
                  sp_meta_loop_saving fuel' setord orders A0 thr n_meta_iter_max n_sub_iter_max
                    p' mA mp' delta' n_meta' true (sp_save_progress A0 p' rec)
                else
                  match sp_aggregate A0 p' with
                  | None => (LRaised p', rec)
                  | Some B =>
                      sp_meta_loop_saving fuel' setord orders A0 thr n_meta_iter_max n_sub_iter_max p'
                        B (part_default (length (cluster_list p'))) delta' n_meta' false (sp_save_progress A0 p' rec)
                  end
            end
        | MRaised => (LRaised p, rec)
        | MFuel => (LFuel, rec)
        end
    end
  else (LDone p n_meta, rec).

(** [find_louvain_clustering(save_progress=True)], l.888-992: the first record is made before the
    test for an autocovariance of zeros (l.907-917); [rec] is what earlier calls recorded *)
Definition sp_find_louvain_saving (setord : list nat -> list nat)
  (orders : nat -> nat -> nat -> list nat)
  (A : autocov) (thr : num) (n_meta_iter_max n_sub_iter_max : nat) (p : partition) (rec : progress) : lres * progress :=
  let rec' := sp_save_progress A p rec in
  if is_all_zeros A then (LDone (full_partition (num_nodes p)) 0, rec')
  else match ac_copy A with
       | None => (LRaised p, rec')
       | Some mA =>
           sp_meta_loop_saving (Datatypes.S (Datatypes.S n_meta_iter_max)) setord orders A thr
             n_meta_iter_max n_sub_iter_max p mA (part_of_list (num_nodes p) (cluster_list p)) 1%num 0 false rec'
       end.
