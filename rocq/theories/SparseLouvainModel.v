(** Model of SparseClustering, /repo/src/flowstab/network_clustering.py l.1480-1751.  It
    inherits the sweeps and the level loop of Clustering and replaces the matrix by a
    SparseAutocovMat. *)
From Verif Require Import Base PartitionModel LouvainModel SparseModel AutocovModel.
Local Open Scope bool_scope.

(** [SparseAutocovMat.copy], sparse_stoch_mat.py l.836-841: the constructor on the copies *)
Definition ac_copy (A : autocov) : option autocov := ac_init (a_PT A) (a_p A) (a_sym A).

(** neighbours, l.1599-1608: the stored columns of row and the stored rows of the column *)
Definition sp_neighs (A : autocov) (node : nat) : list nat :=
  nodup Nat.eq_dec (map fst (row_entries (a_PT A) node) ++ map fst (row_entries (a_PTcsc A) node)).

(** [_compute_clustered_autocov], l.1641-1669 (diagonal), and [compute_stability], l.1625-1638 *)
Definition sp_clustered_autocov (A : autocov) (p : partition) : list num :=
  map (fun c => if nonempty c then ac_submat_sum A c c else 0%num) (cluster_list p).
Definition sp_stability (A : autocov) (p : partition) : num := sumL (fun r => r) (sp_clustered_autocov A p).

(** [_compute_delta_stab_moveto], l.1671-1694; [None] is the ValueError, or a read outside
    the arrays *)
Definition sp_moveto (A : autocov) (p : partition) (k c_f : nat) : option num :=
  match nth_error (cluster_list p) c_f with
  | None => None
  | Some ix => if memb k ix then None else ac_moveto A k ix
  end.
(** [_compute_delta_stab_moveout], l.1697-1721 *)
Definition sp_moveout (A : autocov) (p : partition) (k c_i : nat) : option num :=
  match nth_error (cluster_list p) c_i with
  | None => None
  | Some ix => if memb k ix then ac_moveout A k ix else None
  end.

(** The inherited loop over candidate clusters, l.1274-1290 *)
Definition sp_best_move (A : autocov) (p : partition) (node c_i : nat) (r_out : num)
  (comms : list nat) : option (num * nat) :=
  fold_left (fun best c_f =>
    match best with
    | None => None
    | Some (db, cb) =>
        if Nat.eqb c_f c_i then best
        else match sp_moveto A p node c_f with
             | None => None
             | Some r_in =>
                 let delta_r := (r_out + r_in)%num in
                 if qleb db delta_r then Some (delta_r, c_f) else Some (db, cb)
             end
    end) comms (Some (0%num, c_i)).
(** l.1253-1305 *)
Definition sp_visit (setord : list nat -> list nat) (A : autocov) (p : partition) (node : nat)
  : option (partition * num) :=
  match dget (n2c p) node with
  | None => None
  | Some c_i =>
      match sp_moveout A p node c_i with
      | None => None
      | Some r_out =>
          match potential_new_clusters setord (sp_neighs A) p node with
          | None => None
          | Some comms =>
              match sp_best_move A p node c_i r_out comms with
              | None => None
              | Some (db, cb) =>
                  if Nat.eqb cb c_i then Some (p, 0%num)
                  else match move_node p node cb with
                       | Done p' => Some (p', db)
                       | Raised _ => None
                       end
              end
          end
      end
  end.
(** l.1236-1305 *)
Definition sp_sweep (setord : list nat -> list nat) (A : autocov) (order : list nat) (p : partition)
  : option (partition * num) :=
  fold_left (fun acc node =>
    match acc with
    | None => None
    | Some (q, d) =>
        match sp_visit setord A q node with
        | None => None
        | Some (q', g) => Some (q', (d + g)%num)
        end
    end) order (Some (p, 0%num)).
(** l.1234-1326 *)
Fixpoint sp_sweeps (fuel : nat) (setord : list nat -> list nat) (A : autocov)
  (orders : nat -> list nat) (thr : num) (n_sub_iter_max : nat)
  (p : partition) (delta_r_loop delta_r_tot : num) (n_loop : nat) : mres :=
  if qltb thr delta_r_loop && (n_loop <? n_sub_iter_max) then
    match fuel with
    | 0 => MFuel
    | Datatypes.S fuel' =>
        match sp_sweep setord A (orders n_loop) p with
        | None => MRaised
        | Some (p', d) =>
            sp_sweeps fuel' setord A orders thr n_sub_iter_max p' d
              (delta_r_tot + d)%num (Datatypes.S n_loop)
        end
    end
  else MDone (remove_empty_clusters p) delta_r_tot n_loop.
(** [_louvain_move_nodes], l.1221-1331 *)
Definition sp_move_nodes (setord : list nat -> list nat) (A : autocov)
  (orders : nat -> list nat) (thr : num) (n_sub_iter_max : nat) (p : partition) : mres :=
  sp_sweeps n_sub_iter_max setord A orders thr n_sub_iter_max p 1%num 0%num 1.

(** [_aggregate_clusters], l.1723-1747, and the copy made by the constructor of the meta
    clustering, l.1577 *)
Definition sp_aggregate (A : autocov) (p : partition) : option autocov :=
  match (if get_num_clusters p false =? num_nodes p then Some A else ac_aggregate A (cluster_list p)) with
  | None => None
  | Some B => ac_copy B
  end.

(** the level loop, l.929-990 *)
Fixpoint sp_meta_loop (fuel : nat) (setord : list nat -> list nat)
  (orders : nat -> nat -> nat -> list nat)
  (A0 : autocov) (thr : num) (n_meta_iter_max n_sub_iter_max : nat)
  (p : partition)                         (* self.source_part *)
  (mA : autocov) (mp : partition)         (* meta_clustering *)
  (delta : num) (n_meta : nat) (stop : bool) : lres :=
  if negb (qleb delta thr || stop || (n_meta_iter_max <? n_meta)) then
    match fuel with
    | 0 => LFuel
    | Datatypes.S fuel' =>
        let n_meta' := Datatypes.S n_meta in
        match sp_move_nodes setord mA (fun k => orders n_meta' k (num_nodes mp)) thr n_sub_iter_max mp with
        | MDone mp' delta' _ =>
            match updated_partition p mp' with
            | None => LRaised p
            | Some p' =>
                if all_singletons p' || (n_meta_iter_max <? n_meta') || qleb delta' thr then
                  sp_meta_loop fuel' setord orders A0 thr n_meta_iter_max n_sub_iter_max
                    p' mA mp' delta' n_meta' true
                else
                  match sp_aggregate A0 p' with
                  | None => LRaised p'
                  | Some B =>
                      sp_meta_loop fuel' setord orders A0 thr n_meta_iter_max n_sub_iter_max p'
                        B (part_default (length (cluster_list p'))) delta' n_meta' false
                  end
            end
        | MRaised => LRaised p
        | MFuel => LFuel
        end
    end
  else LDone p n_meta.

(** [find_louvain_clustering], l.888-992, on a SparseClustering holding the matrix [A] and
    the partition [p]; the first meta clustering holds a copy of the matrix and of the
    cluster list *)
Definition sp_find_louvain (setord : list nat -> list nat)
  (orders : nat -> nat -> nat -> list nat)
  (A : autocov) (thr : num) (n_meta_iter_max n_sub_iter_max : nat) (p : partition) : lres :=
  if is_all_zeros A then LDone (full_partition (num_nodes p)) 0
  else match ac_copy A with
       | None => LRaised p
       | Some mA =>
           sp_meta_loop (Datatypes.S (Datatypes.S n_meta_iter_max)) setord orders A thr
             n_meta_iter_max n_sub_iter_max p mA (part_of_list (num_nodes p) (cluster_list p)) 1%num 0 false
       end.
