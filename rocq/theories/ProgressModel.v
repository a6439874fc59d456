(** Model of the search that records its progress ([save_progress=True] of
    [find_louvain_clustering]) and of the normalisation of an upper triangular matrix. *)
From Verif Require Import Base PartitionModel LouvainModel.

(** The attributes [partition_progress] and [stability_progress] of a Clustering; the two
    lists are always appended to together (network_clustering.py l.1407-1416), so they are
    one list of pairs here.  A missing attribute is the empty list. *)
Definition progress := list (partition * num).

(** [_save_progress], network_clustering.py l.1407-1416: the deep copy of the partition and
    [compute_stability()] of the current partition. *)
Definition save_progress (S : mat) (p : partition) (rec : progress) : progress :=
  rec ++ [(p, compute_stability S p)].

(** The loop of l.929-990 with [save_progress=True]: as [meta_loop], with the record made at
    the end of each turn (l.976-977), after the aggregation, which may raise. *)
Fixpoint meta_loop_saving (fuel : nat) (setord : list nat -> list nat)
  (orders : nat -> nat -> nat -> list nat)
  (T0 S0 : mat) (thr : num) (n_meta_iter_max n_sub_iter_max : nat)
  (p : partition) (mT mS : mat) (mp : partition)
  (delta : num) (n_meta : nat) (stop : bool) (rec : progress) : lres * progress :=
  if negb (qleb delta thr || stop || (n_meta_iter_max <? n_meta)) then
    match fuel with
    | 0 => (LFuel, rec)
    | Datatypes.S fuel' =>
        let n_meta' := Datatypes.S n_meta in
        match louvain_move_nodes setord mS (neighs_of (num_nodes mp) mT)
                (fun k => orders n_meta' k (num_nodes mp)) thr n_sub_iter_max mp with
        | MDone mp' delta' _ =>
            match updated_partition p mp' with
            | None => (LRaised p, rec)
            | Some p' =>
                if all_singletons p' || (n_meta_iter_max <? n_meta') || qleb delta' thr then
                  meta_loop_saving fuel' setord orders T0 S0 thr n_meta_iter_max n_sub_iter_max
                    p' mT mS mp' delta' n_meta' true (save_progress S0 p' rec)
                else
                  let nc := length (cluster_list p') in
                  if rows_nonzero nc (aggregate T0 p') then
                    meta_loop_saving fuel' setord orders T0 S0 thr n_meta_iter_max n_sub_iter_max p'
                      (row_normalised nc (aggregate T0 p')) (aggregate S0 p') (part_default nc)
                      delta' n_meta' false (save_progress S0 p' rec)
                  else (LRaised p', rec)
            end
        | MRaised => (LRaised p, rec)
        | MFuel => (LFuel, rec)
        end
    end
  else (LDone p n_meta, rec).

(** [find_louvain_clustering(save_progress=True)], l.888-992 and l.1450-1477: the first record
    is made before the test for an autocovariance of zeros (l.907-917). [rec] is what earlier
    calls on the same object recorded. *)
Definition find_louvain_saving (setord : list nat -> list nat)
  (orders : nat -> nat -> nat -> list nat)
  (T S : mat) (thr : num) (n_meta_iter_max n_sub_iter_max : nat) (p : partition) (rec : progress) : lres * progress :=
  let rec' := save_progress S p rec in
  if Nat.eqb (num_nodes p) 0 then (LRaised p, rec')
  else if S_is_zero (num_nodes p) S then (LDone (full_partition (num_nodes p)) 0, rec')
  else meta_loop_saving (Datatypes.S (Datatypes.S n_meta_iter_max)) setord orders T S thr
         n_meta_iter_max n_sub_iter_max p T S (part_of_list (num_nodes p) (cluster_list p))
         1%num 0 false rec'.

(** ** [cython_inplace_csr_row_normalize_triu], _cython_sparse_stoch.pyx l.520-590.
    The CSR matrix is given by its entries (those absent from the CSR arrays are zero, and a
    division of zero leaves zero).  One turn of the outer loop: the diagonal and the sums of
    the columns are computed once (l.562-569), then the rows from k on are divided
    (l.571-589).  With [cdivision], dividing by a quotient [sum_/0] sets a row to zero; the
    rationals' convention 1/0 = 0 gives the same. *)
Definition triu_pass (n : nat) (row_sum : nat -> num) (k : nat) (X : mat) : mat :=
  if qeqb (row_sum k) 0%num then X else
  fun i j =>
    if (k <=? i) && (i <? n) then
      let row_sum_tmp := (row_sum i + X i i - sumN n (fun l => X l i))%num in
      let sum_ := sumN n (X i) in
      if qeqb sum_ 0%num then X i j else (X i j / (sum_ / row_sum_tmp))%num
    else X i j.
(** the outer loop, l.559 *)
Fixpoint triu_passes (n : nat) (row_sum : nat -> num) (k m : nat) (X : mat) : mat :=
  match m with
  | 0 => X
  | Datatypes.S m' => triu_passes n row_sum (Datatypes.S k) m' (triu_pass n row_sum k X)
  end.
Definition normalize_triu (n : nat) (row_sum : nat -> num) (X : mat) : mat := triu_passes n row_sum 0 n X.
