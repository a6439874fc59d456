(** Model of the dense Louvain clustering, /repo/src/flowstab/network_clustering.py
    (classes BaseClustering l.278-1048 and Clustering l.1051-1477) and of the
    kernels sum_Sto, sum_Sout, compute_S of _cython_fast_funcs.pyx.

    A square numpy array of size n is a function [nat -> nat -> num] read only
    at indices below n.  Random visiting orders and the iteration order of
    python sets are arguments.  Printing, logging and timing are dropped. *)
From Verif Require Import Base PartitionModel.

Definition mat := nat -> nat -> num.

(** ** Stability *)

(** sum of S over a x b, e.g. [self._S[idx].sum()] with [idx = np.ix_(a, b)] *)
Definition block (S : mat) (a b : list nat) : num :=
  sumL (fun i => sumL (fun j => S i j) b) a.

(** [Clustering._compute_clustered_autocov], l.1131-1156: the diagonal of R.
    Empty clusters are skipped and keep the initial 0. *)
Definition clustered_autocov (S : mat) (p : partition) : list num :=
  map (fun c => if nonempty c then block S c c else 0%num) (cluster_list p).
(** [Clustering.compute_stability], l.1117-1128. *)
Definition compute_stability (S : mat) (p : partition) : num :=
  sumL (fun r => r) (clustered_autocov S p).

(** [BaseClustering._compute_clustered_autocov], l.461-498: entry (s, t) *)
Definition bi_autocov (S : mat) (ps pt : partition) : mat := fun s t =>
  let cs := nth s (cluster_list ps) [] in
  let ct := nth t (cluster_list pt) [] in
  if (s <? get_num_clusters ps false) && (t <? get_num_clusters pt false)
     && nonempty cs && nonempty ct
  then block S cs ct else 0%num.

(** ** Gains *)

(** [sum_Sto], _cython_fast_funcs.pyx 39-53; same value as the numpy expression
    of network_clustering.py l.1181-1183 *)
Definition sum_Sto (S : mat) (k : nat) (ix : list nat) : num :=
  (fold_left (fun d i => d + S k i + S i k) ix 0 + S k k)%num.
(** [sum_Sout], _cython_fast_funcs.pyx 55-69 *)
Definition sum_Sout (S : mat) (k : nat) (ix : list nat) : num :=
  (fold_left (fun d i => d - S k i - S i k) ix 0 + S k k)%num.

(** [_compute_delta_stab_moveto], l.1158-1185; [None] is the ValueError (or the
    IndexError for a missing cluster) *)
Definition delta_moveto (S : mat) (p : partition) (k c_f : nat) : option num :=
  match nth_error (cluster_list p) c_f with
  | None => None
  | Some ix => if memb k ix then None else Some (sum_Sto S k ix)
  end.
(** [_compute_delta_stab_moveout], l.1188-1218 *)
Definition delta_moveout (S : mat) (p : partition) (k c_i : nat) : option num :=
  match nth_error (cluster_list p) c_i with
  | None => None
  | Some ix => if memb k ix then Some (sum_Sout S k ix) else None
  end.

(** ** One visit, one sweep, the sweeps of one level *)

(** [_potential_new_clusters], l.1333-1345; [None] is a KeyError.  [setord] is the
    order in which python iterates over the resulting set. *)
Definition potential_new_clusters (setord : list nat -> list nat)
  (neighs : nat -> list nat) (p : partition) (node : nat) : option (list nat) :=
  match dget (n2c p) node with
  | None => None
  | Some c_i =>
      match fold_right (fun x acc =>
               match acc, dget (n2c p) x with
               | Some s, Some c => Some (set_add c s)
               | _, _ => None
               end) (Some []) (neighs node) with
      | None => None
      | Some comms => Some (setord (rem c_i comms))
      end
  end.

(** loop of l.1274-1290 over candidate clusters, carrying (delta_r_best, c_f_best) *)
Definition best_move (S : mat) (p : partition) (node c_i : nat) (r_out : num)
  (comms : list nat) : option (num * nat) :=
  fold_left (fun best c_f =>
    match best with
    | None => None
    | Some (db, cb) =>
        if Nat.eqb c_f c_i then best
        else match delta_moveto S p node c_f with
             | None => None
             | Some r_in =>
                 let delta_r := (r_out + r_in)%num in
                 if qleb db delta_r then Some (delta_r, c_f) else Some (db, cb)
             end
    end) comms (Some (0%num, c_i)).

(** l.1253-1305: treat one node; returns the partition and the gain added *)
Definition visit (setord : list nat -> list nat) (S : mat) (neighs : nat -> list nat)
  (p : partition) (node : nat) : option (partition * num) :=
  match dget (n2c p) node with
  | None => None
  | Some c_i =>
      match delta_moveout S p node c_i with
      | None => None
      | Some r_out =>
          match potential_new_clusters setord neighs p node with
          | None => None
          | Some comms =>
              match best_move S p node c_i r_out comms with
              | None => None
              | Some (db, cb) =>
                  if Nat.eqb cb c_i then Some (p, 0%num)
                  else match move_node p node cb with
                       | Done p' => Some (p', db)
                       | Raised _ => None
                       end
              end
          end
      end
  end.

(** l.1236-1305: one pass over the nodes in the given order, with delta_r_loop *)
Definition sweep (setord : list nat -> list nat) (S : mat) (neighs : nat -> list nat)
  (order : list nat) (p : partition) : option (partition * num) :=
  fold_left (fun acc node =>
    match acc with
    | None => None
    | Some (q, d) =>
        match visit setord S neighs q node with
        | None => None
        | Some (q', g) => Some (q', (d + g)%num)
        end
    end) order (Some (p, 0%num)).

(** Result of the sweeps: [MFuel] is never returned for enough fuel. *)
Inductive mres := MDone (p : partition) (delta_r_tot : num) (n_loop : nat) | MRaised | MFuel.

(** the while loop of l.1234-1326; [orders k] is the shuffled order of sweep k *)
Fixpoint sweeps (fuel : nat) (setord : list nat -> list nat) (S : mat)
  (neighs : nat -> list nat) (orders : nat -> list nat) (thr : num) (n_sub_iter_max : nat)
  (p : partition) (delta_r_loop delta_r_tot : num) (n_loop : nat) : mres :=
  if qltb thr delta_r_loop && (n_loop <? n_sub_iter_max) then
    match fuel with
    | 0 => MFuel
    | Datatypes.S fuel' =>
        match sweep setord S neighs (orders n_loop) p with
        | None => MRaised
        | Some (p', d) =>
            sweeps fuel' setord S neighs orders thr n_sub_iter_max p' d
              (delta_r_tot + d)%num (Datatypes.S n_loop)
        end
    end
  else MDone (remove_empty_clusters p) delta_r_tot n_loop.

(** [Clustering._louvain_move_nodes], l.1221-1331 *)
Definition louvain_move_nodes (setord : list nat -> list nat) (S : mat)
  (neighs : nat -> list nat) (orders : nat -> list nat) (thr : num) (n_sub_iter_max : nat)
  (p : partition) : mres :=
  sweeps n_sub_iter_max setord S neighs orders thr n_sub_iter_max p 1%num 0%num 1.

(** ** Aggregation *)

(** entry (s, t) of the aggregated S (l.1397) and of the unnormalised T (l.1395);
    [partition.iter_cluster_node_index] enumerates cluster_list *)
Definition aggregate (M : mat) (p : partition) : mat := fun s t =>
  block M (nth s (cluster_list p) []) (nth t (cluster_list p) []).
(** l.1400: [T / T.sum(axis=1)] *)
Definition row_normalised (n : nat) (M : mat) : mat := fun s t =>
  (M s t / sumN n (M s))%num.

(** [_get_updated_partition], l.867-886; [None] is a KeyError/ValueError *)
Definition updated_partition (og_old meta_new : partition) : option partition :=
  let og := remove_empty_clusters og_old in
  let mn := remove_empty_clusters meta_new in
  let acc := fold_left (fun acc (ic : nat * list nat) =>
        match acc with
        | None => None
        | Some d =>
            match dget (n2c mn) (fst ic) with
            | None => match snd ic with [] => Some d | _ => None end
            | Some c => Some (fold_left (fun d x => dset d x c) (snd ic) d)
            end
        end)
      (combine (seq 0 (length (cluster_list og))) (cluster_list og)) (Some []) in
  match acc with
  | None => None
  | Some d => part_of_dict (num_nodes og) d
  end.

(** ** The clustering object and [find_louvain_clustering] *)

(** neighbours of a node, l.419-425: out- and in-neighbours where T > 0 *)
Definition neighs_of (n : nat) (T : mat) (node : nat) : list nat :=
  filter (fun x => qltb 0%num (T node x) || qltb 0%num (T x node)) (seq 0 n).

(** [_check_if_S_is_zero], l.1046-1048: max |S| < 1e-6 / n^2 (for n > 0) *)
Definition S_is_zero (n : nat) (S : mat) : bool :=
  forallb (fun i => forallb (fun j =>
    qltb (qabs (S i j)) (qf 1 1000000 / qn (n * n))%num) (seq 0 n)) (seq 0 n).

(** [_update_to_fullpart], l.1444-1447 *)
Definition full_partition (n : nat) : partition := part_of_list n [seq 0 n].

(** The assertion of l.357-359 in the constructor of the meta clustering: after
    normalisation a row sums to 1, or is NaN (the assertion fails) when its sum
    was 0. *)
Definition rows_nonzero (n : nat) (M : mat) : bool :=
  forallb (fun s => negb (qeqb (sumN n (M s)) 0%num)) (seq 0 n).

(** Outcome: partition of the original nodes and number of levels; an exception
    keeps the partition reached. *)
Inductive lres := LDone (p : partition) (n_meta : nat) | LRaised (p : partition) | LFuel.

Definition all_singletons (p : partition) : bool :=
  forallb (fun c => Nat.eqb (length c) 1) (cluster_list p).

(** the while loop of l.929-990.  The meta clustering is given by its size, its
    T (for neighbours), its S and its partition.  p1 and p2 of the meta levels
    are not modelled: they are never read once S is given. *)
Fixpoint meta_loop (fuel : nat) (setord : list nat -> list nat)
  (orders : nat -> nat -> nat -> list nat)
  (T0 S0 : mat) (thr : num) (n_meta_iter_max n_sub_iter_max : nat)
  (p : partition)                         (* self.source_part *)
  (mT mS : mat) (mp : partition)          (* meta_clustering *)
  (delta : num) (n_meta : nat) (stop : bool) : lres :=
  if negb (qleb delta thr || stop || (n_meta_iter_max <? n_meta)) then
    match fuel with
    | 0 => LFuel
    | Datatypes.S fuel' =>
        let n_meta' := Datatypes.S n_meta in
        match louvain_move_nodes setord mS (neighs_of (num_nodes mp) mT)
                (fun k => orders n_meta' k (num_nodes mp)) thr n_sub_iter_max mp with
        | MDone mp' delta' _ =>
            match updated_partition p mp' with
            | None => LRaised p
            | Some p' =>
                if all_singletons p' || (n_meta_iter_max <? n_meta') || qleb delta' thr then
                  meta_loop fuel' setord orders T0 S0 thr n_meta_iter_max n_sub_iter_max
                    p' mT mS mp' delta' n_meta' true
                else
                  let nc := length (cluster_list p') in
                  if rows_nonzero nc (aggregate T0 p') then
                    meta_loop fuel' setord orders T0 S0 thr n_meta_iter_max n_sub_iter_max p'
                      (row_normalised nc (aggregate T0 p')) (aggregate S0 p') (part_default nc)
                      delta' n_meta' false
                  else LRaised p'
            end
        | MRaised => LRaised p
        | MFuel => LFuel
        end
    end
  else LDone p n_meta.

(** [find_louvain_clustering], l.888-992 and l.1450-1477, on a Clustering whose
    current partition is [p]. The first meta clustering gets a deep copy of the
    cluster list (l.919-924).  For an empty network numpy's max of an empty array
    raises (l.1048). *)
Definition find_louvain (setord : list nat -> list nat)
  (orders : nat -> nat -> nat -> list nat)
  (T S : mat) (thr : num) (n_meta_iter_max n_sub_iter_max : nat) (p : partition) : lres :=
  if Nat.eqb (num_nodes p) 0 then LRaised p
  else if S_is_zero (num_nodes p) S then LDone (full_partition (num_nodes p)) 0
  else meta_loop (Datatypes.S (Datatypes.S n_meta_iter_max)) setord orders T S thr
         n_meta_iter_max n_sub_iter_max p T S (part_of_list (num_nodes p) (cluster_list p))
         1%num 0 false.

(** ** Incremental update of the bipartite matrix *)

(** [Rnew[a,b] += v] *)
Definition madd (R : mat) (a b : nat) (v : num) : mat := fun s t =>
  if Nat.eqb s a && Nat.eqb t b then (R s t + v)%num else R s t.
(** [self._S[cluster, k].sum()] and [self._S[k, cluster].sum()] *)
Definition col_sum (S : mat) (c : list nat) (k : nat) : num := sumL (fun i => S i k) c.
Definition row_sum (S : mat) (k : nat) (c : list nat) : num := sumL (fun j => S k j) c.

(** [_compute_new_R_moveout], l.610-676; [None] is the ValueError *)
Definition new_R_moveout (S : mat) (ps pt : partition) (k c_i_s c_i_t : nat) (Rold : mat)
  : option mat :=
  match nth_error (cluster_list ps) c_i_s, nth_error (cluster_list pt) c_i_t with
  | Some cs, Some ct =>
      if memb k cs && memb k ct then
        let R1 := fold_left (fun R s =>
                    madd R s c_i_t (- col_sum S (nth s (cluster_list ps) []) k)%num)
                    (seq 0 (get_num_clusters ps false)) Rold in
        let R2 := fold_left (fun R t =>
                    madd R c_i_s t (- row_sum S k (nth t (cluster_list pt) []))%num)
                    (seq 0 (get_num_clusters pt false)) R1 in
        Some (madd R2 c_i_s c_i_t (S k k))
      else None
  | _, _ => None
  end.

(** [_compute_new_R_moveto], l.543-607 *)
Definition new_R_moveto (S : mat) (ps pt : partition) (k c_i_s c_i_t c_f_s c_f_t : nat)
  (Rold : mat) : mat :=
  let R1 := fold_left (fun R s =>
              madd R s c_f_t (col_sum S (nth s (cluster_list ps) []) k))
              (seq 0 (get_num_clusters ps false)) Rold in
  let R2 := fold_left (fun R t =>
              madd R c_f_s t (row_sum S k (nth t (cluster_list pt) [])))
              (seq 0 (get_num_clusters pt false)) R1 in
  let R3 := madd R2 c_i_s c_f_t (- S k k)%num in
  let R4 := madd R3 c_f_s c_i_t (- S k k)%num in
  madd R4 c_f_s c_f_t (S k k).

(** ** The autocovariance *)

(** default p2, l.367-368: p1 @ T *)
Definition vec_mat (n : nat) (v : nat -> num) (T : mat) (j : nat) : num :=
  sumN n (fun i => (v i * T i j)%num).
(** [_compute_S], l.431-457 (S_threshold = None), and [compute_S] of
    _cython_fast_funcs.pyx 71-92: S[i,j] = p1[i]*T[i,j] - p1[i]*p2[j] *)
Definition compute_S (p1 p2 : nat -> num) (T : mat) : mat := fun i j =>
  (p1 i * T i j - p1 i * p2 j)%num.
