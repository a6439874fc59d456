(** Model of a SparseClustering with either implementation of its kernels: the compiled module
    (_cython_sparse_stoch.pyx) or the fallback in Python (_cython_subst.py), chosen when
    /repo/src/flowstab/sparse_stoch_mat.py is imported, l.44-48.

    The loops are those of SparseLouvainModel.v with the three kernels that they call made
    parameters; with the compiled ones they are the functions of that file ([k_find_compiled]
    in FallbackProps.v). *)
From Verif Require Import Base PartitionModel LouvainModel SparseModel AutocovModel SparseLouvainModel.
Local Open Scope bool_scope.

(** what [SparseAutocovMat._compute_delta_S_moveto], [_compute_delta_S_moveout] and [aggregate]
    return; [None] is an exception *)
Record kernels := mkK {
  k_moveto : autocov -> nat -> list nat -> option num;
  k_moveout : autocov -> nat -> list nat -> option num;
  k_aggregate : autocov -> list (list nat) -> option autocov
}.
Definition compiled : kernels := mkK ac_moveto ac_moveout ac_aggregate.
(** _cython_subst.py:
    - [compute_delta_PT_moveto] l.390 and [compute_delta_S_moveto] l.432 read [idx.shape], but
      [_compute_delta_stab_moveto] (network_clustering.py l.1690-1694) passes an [array("i")],
      which has no such attribute;
    - [compute_delta_PT_moveout], l.470-511, agrees with the compiled one: here the caller
      converts [idx] to a numpy array, sparse_stoch_mat.py l.1084;
    - there is no [compute_delta_S_moveout] (l.513 names it [cython_compute_delta_S_moveout]);
    - [aggregate_csr_mat] l.362-374 and [aggregate_csr_mat_2] l.376-388 raise
      NotImplementedError. *)
Definition fallback : kernels := mkK
  (fun _ _ _ => None)
  (fun A k idx => match a_p A with PScal _ _ => ac_moveout A k idx | PVec _ _ => None end)
  (fun _ _ => None).

(** network_clustering.py l.1671-1694 *)
Definition k_sp_moveto (K : kernels) (A : autocov) (p : partition) (k c_f : nat) : option num :=
  match nth_error (cluster_list p) c_f with
  | None => None
  | Some ix => if memb k ix then None else k_moveto K A k ix
  end.
(** l.1697-1721 *)
Definition k_sp_moveout (K : kernels) (A : autocov) (p : partition) (k c_i : nat) : option num :=
  match nth_error (cluster_list p) c_i with
  | None => None
  | Some ix => if memb k ix then k_moveout K A k ix else None
  end.
(** l.1274-1290 *)
Definition k_best_move (K : kernels) (A : autocov) (p : partition) (node c_i : nat) (r_out : num)
  (comms : list nat) : option (num * nat) :=
  fold_left (fun best c_f =>
    match best with
    | None => None
    | Some (db, cb) =>
        if Nat.eqb c_f c_i then best
        else match k_sp_moveto K A p node c_f with
             | None => None
             | Some r_in =>
                 let delta_r := (r_out + r_in)%num in
                 if qleb db delta_r then Some (delta_r, c_f) else Some (db, cb)
             end
    end) comms (Some (0%num, c_i)).
(** l.1253-1305 *)
Definition k_visit (K : kernels) (setord : list nat -> list nat) (A : autocov) (p : partition) (node : nat)
  : option (partition * num) :=
  match dget (n2c p) node with
  | None => None
  | Some c_i =>
      match k_sp_moveout K A p node c_i with
      | None => None
      | Some r_out =>
          match potential_new_clusters setord (sp_neighs A) p node with
          | None => None
          | Some comms =>
              match k_best_move K A p node c_i r_out comms with
              | None => None
              | Some (db, cb) =>
                  if Nat.eqb cb c_i then Some (p, 0%num)
                  else match move_node p node cb with
                       | Done p' => Some (p', db)
                       | Raised _ => None
                       end
              end
          end
      end
  end.
(** l.1236-1305 *)
Definition k_sweep (K : kernels) (setord : list nat -> list nat) (A : autocov) (order : list nat) (p : partition)
  : option (partition * num) :=
  fold_left (fun acc node =>
    match acc with
    | None => None
    | Some (q, d) =>
        match k_visit K setord A q node with
        | None => None
        | Some (q', g) => Some (q', (d + g)%num)
        end
    end) order (Some (p, 0%num)).
(** l.1234-1326 *)
Fixpoint k_sweeps (K : kernels) (fuel : nat) (setord : list nat -> list nat) (A : autocov)
  (orders : nat -> list nat) (thr : num) (n_sub_iter_max : nat)
  (p : partition) (delta_r_loop delta_r_tot : num) (n_loop : nat) : mres :=
  if qltb thr delta_r_loop && (n_loop <? n_sub_iter_max) then
    match fuel with
    | 0 => MFuel
    | Datatypes.S fuel' =>
        match k_sweep K setord A (orders n_loop) p with
        | None => MRaised
        | Some (p', d) =>
            k_sweeps K fuel' setord A orders thr n_sub_iter_max p' d
              (delta_r_tot + d)%num (Datatypes.S n_loop)
        end
    end
  else MDone (remove_empty_clusters p) delta_r_tot n_loop.
(** l.1221-1331 *)
Definition k_move_nodes (K : kernels) (setord : list nat -> list nat) (A : autocov)
  (orders : nat -> list nat) (thr : num) (n_sub_iter_max : nat) (p : partition) : mres :=
  k_sweeps K n_sub_iter_max setord A orders thr n_sub_iter_max p 1%num 0%num 1.
(** l.1723-1747 *)
Definition k_sp_aggregate (K : kernels) (A : autocov) (p : partition) : option autocov :=
  match (if get_num_clusters p false =? num_nodes p then Some A else k_aggregate K A (cluster_list p)) with
  | None => None
  | Some B => ac_copy B
  end.
(** l.929-990 *)
Fixpoint k_meta_loop (K : kernels) (fuel : nat) (setord : list nat -> list nat)
  (orders : nat -> nat -> nat -> list nat)
  (A0 : autocov) (thr : num) (n_meta_iter_max n_sub_iter_max : nat)
  (p : partition) (mA : autocov) (mp : partition)
  (delta : num) (n_meta : nat) (stop : bool) : lres :=
  if negb (qleb delta thr || stop || (n_meta_iter_max <? n_meta)) then
    match fuel with
    | 0 => LFuel
    | Datatypes.S fuel' =>
        let n_meta' := Datatypes.S n_meta in
        match k_move_nodes K setord mA (fun k => orders n_meta' k (num_nodes mp)) thr n_sub_iter_max mp with
        | MDone mp' delta' _ =>
            match updated_partition p mp' with
            | None => LRaised p
            | Some p' =>
                if all_singletons p' || (n_meta_iter_max <? n_meta') || qleb delta' thr then
                  k_meta_loop K fuel' setord orders A0 thr n_meta_iter_max n_sub_iter_max
                    p' mA mp' delta' n_meta' true
                else
                  match k_sp_aggregate K A0 p' with
                  | None => LRaised p'
                  | Some B =>
                      k_meta_loop K fuel' setord orders A0 thr n_meta_iter_max n_sub_iter_max p'
                        B (part_default (length (cluster_list p'))) delta' n_meta' false
                  end
            end
        | MRaised => LRaised p
        | MFuel => LFuel
        end
    end
  else LDone p n_meta.
(** [find_louvain_clustering], l.888-992 *)
Definition k_find_louvain (K : kernels) (setord : list nat -> list nat)
  (orders : nat -> nat -> nat -> list nat)
  (A : autocov) (thr : num) (n_meta_iter_max n_sub_iter_max : nat) (p : partition) : lres :=
  if is_all_zeros A then LDone (full_partition (num_nodes p)) 0
  else match ac_copy A with
       | None => LRaised p
       | Some mA =>
           k_meta_loop K (Datatypes.S (Datatypes.S n_meta_iter_max)) setord orders A thr
             n_meta_iter_max n_sub_iter_max p mA (part_of_list (num_nodes p) (cluster_list p)) 1%num 0 false
       end.
