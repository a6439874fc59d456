(** Properties C07-C15 and C56: the dense Louvain clustering. *)
From Verif Require Import Base PartitionModel PartitionSpec PartitionProofs
  LouvainModel LouvainSpec LouvainProofs.

(** Data for the examples: two nodes exchanging their walkers and a third one
    keeping its own. *)
Definition T3 : mat := of_rows [[0;1;0];[1;0;0];[0;0;1]]%num.
Definition u3 : nat -> num := fun _ => qf 1 3.
Definition S3 : mat := compute_S u3 (vec_mat 3 u3 T3) T3.
Definition keep_order : list nat -> list nat := fun l => l.
Definition in_order : nat -> nat -> nat -> list nat := fun _ _ n => seq 0 n.
Lemma keep_order_ok : is_iteration_order keep_order.
Proof. intros l. apply Permutation_refl. Qed.
Lemma in_order_ok : shuffles in_order.
Proof. intros a b c. apply Permutation_refl. Qed.

(** ** C07 *)
Theorem C07_gain_exact :
  forall S p k c_i c_f,
    valid p -> in_cluster (cluster_list p) c_i k -> c_f < length (cluster_list p) -> c_f <> c_i ->
    exists r_out r_in p',
      delta_moveout S p k c_i = Some r_out /\ delta_moveto S p k c_f = Some r_in /\
      move_node p k c_f = Done p' /\
      (r_out + r_in)%num = (stability S p' - stability S p)%num.
Proof. exact gain_defined. Qed.
Print Assumptions C07_gain_exact.
Example C07_nonvacuous :
  let p := part_of_list 3 [[0];[1;2]] in
  valid p /\ in_cluster (cluster_list p) 1 1 /\
  delta_moveout S3 p 1 1 = Some (qf 1 3) /\ delta_moveto S3 p 1 0 = Some (qf 1 3).
Proof.
  split; [apply of_list_valid, partitionsb_sound; reflexivity|].
  split; [exists [1;2]; split; [reflexivity|simpl; auto]|].
  split; vm_compute; f_equal; apply Qc_is_canon; reflexivity.
Qed.

(** ** C08 *)
Theorem C08_sweeps_exact_gain :
  forall setord S neighs orders thr n_sub_iter_max p,
    is_iteration_order setord -> valid p -> neighs_in_range (num_nodes p) neighs ->
    (forall k, order_in_range (num_nodes p) (orders k)) ->
    exists p' gain n_loop,
      louvain_move_nodes setord S neighs orders thr n_sub_iter_max p = MDone p' gain n_loop /\
      valid p' /\ num_nodes p' = num_nodes p /\ no_empty (cluster_list p') /\
      (0 <= gain)%num /\ gain = (stability S p' - stability S p)%num.
Proof. exact move_phase_stability. Qed.
Print Assumptions C08_sweeps_exact_gain.
Example C08_nonvacuous :
  neighs_in_range 3 (neighs_of 3 T3) /\ valid (part_default 3) /\
  exists g n, louvain_move_nodes keep_order S3 (neighs_of 3 T3) (fun k => in_order 1 k 3) 0%num 10 (part_default 3)
    = MDone (part_of_list 3 [[0;1];[2]]) g n /\ (0 < g)%num.
Proof.
  split; [apply neighs_of_range|]. split; [apply default_valid|].
  eexists _, _. split; [vm_compute; reflexivity|reflexivity].
Qed.

(** ** C09 *)
Theorem C09_aggregation_preserves_stability :
  forall S p mq q,
    valid p -> valid mq -> num_nodes mq = length (cluster_list p) -> valid q ->
    stands_for p mq q ->
    stability (aggregate S p) mq = stability S q.
Proof. exact aggregate_stands_for. Qed.
Print Assumptions C09_aggregation_preserves_stability.
(** the code's translation back to original nodes is the partition it stands for *)
Theorem C09_translation_back :
  forall p mp,
    valid p -> no_empty (cluster_list p) -> valid mp -> no_empty (cluster_list mp) ->
    num_nodes mp = length (cluster_list p) -> 0 < num_nodes p ->
    exists q, updated_partition p mp = Some q /\ valid q /\ no_empty (cluster_list q) /\
      stands_for p mp q.
Proof. exact updated_stands_for. Qed.
Print Assumptions C09_translation_back.
Example C09_nonvacuous :
  let p := part_of_list 4 [[0;2];[1];[3]] in
  let mp := part_of_list 3 [[1];[0;2]] in
  valid p /\ no_empty (cluster_list p) /\ valid mp /\ no_empty (cluster_list mp) /\
  option_map cluster_list (updated_partition p mp) = Some [[1];[3;2;0]].
Proof.
  split; [apply of_list_valid, partitionsb_sound; reflexivity|].
  split; [apply remove_empty_no_empty|].
  split; [apply of_list_valid, partitionsb_sound; reflexivity|].
  split; [apply remove_empty_no_empty|]. reflexivity.
Qed.

(** ** C10 *)
Theorem C10_not_worse_than_singletons :
  forall setord orders T S thr n_meta_iter_max n_sub_iter_max n,
    is_iteration_order setord -> shuffles orders -> 0 < n -> S_is_zero n S = false ->
    has_out_flow n T ->
    exists p' n_meta,
      find_louvain setord orders T S thr n_meta_iter_max n_sub_iter_max (part_default n) = LDone p' n_meta /\
      valid p' /\ no_empty (cluster_list p') /\ num_nodes p' = n /\
      (stability S (part_default n) <= stability S p')%num.
Proof. exact find_louvain_default. Qed.
Print Assumptions C10_not_worse_than_singletons.
(** when S is declared zero a single cluster is returned, and the choice is immaterial up
    to 2e-6 *)
Theorem C10_zero_S :
  forall setord orders T S thr n_meta_iter_max n_sub_iter_max p,
    0 < num_nodes p -> S_is_zero (num_nodes p) S = true ->
    find_louvain setord orders T S thr n_meta_iter_max n_sub_iter_max p
      = LDone (full_partition (num_nodes p)) 0 /\
    (forall q, num_nodes q = num_nodes p ->
       - qf 1 1000000 <= stability S q /\ stability S q <= qf 1 1000000)%num.
Proof.
  exact (fun so o T S t nm ns p Hn Hz =>
    conj (find_louvain_zero so o T S t nm ns p Hn Hz)
         (fun q Hq => zero_stability_bound (num_nodes p) S q Hn Hq Hz)).
Qed.
Print Assumptions C10_zero_S.
Example C10_nonvacuous :
  S_is_zero 3 S3 = false /\ has_out_flow 3 T3 /\
  find_louvain keep_order in_order T3 S3 0%num 10 10 (part_default 3)
    = LDone (part_of_list 3 [[0;1];[2]]) 2.
Proof.
  split; [vm_compute; reflexivity|]. split; [|vm_compute; reflexivity]. split.
  - intros i j Hi Hj. destruct i as [|[|[|i]]]; [| | |lia];
      (destruct j as [|[|[|j]]]; [| | |lia]); vm_compute; discriminate.
  - intros i Hi. destruct i as [|[|[|i]]]; [| | |lia]; reflexivity.
Qed.

(** ** C11
    Full statement: restarting never lowers stability.  It is false: the cluster numbers of
    the initial partition are read as node numbers of the first meta level. *)
Definition C11_statement : Prop :=
  forall setord orders T S thr n_meta_iter_max n_sub_iter_max p p' n_meta,
    is_iteration_order setord -> shuffles orders -> valid p -> no_empty (cluster_list p) ->
    has_out_flow (num_nodes p) T -> S_is_zero (num_nodes p) S = false ->
    find_louvain setord orders T S thr n_meta_iter_max n_sub_iter_max p = LDone p' n_meta ->
    (stability S p <= stability S p')%num.
Theorem C11_restart_refuted : ~ C11_statement.
Proof.
  intros H.
  destruct C10_nonvacuous as (Hz & Hf & _).
  pose (p := part_of_list 3 [[0;1];[2]]).
  pose (q := mkPart 3 [[2;1;0]] [(2,0);(1,0);(0,0)]).
  specialize (H keep_order in_order T3 S3 0%num 10 10 p q 1 keep_order_ok in_order_ok).
  assert (Hle : (stability S3 p <= stability S3 q)%num).
  { apply H.
    - apply of_list_valid, partitionsb_sound. reflexivity.
    - apply remove_empty_no_empty.
    - exact Hf.
    - exact Hz.
    - vm_compute. reflexivity. }
  revert Hle. vm_compute. intros Hle. apply Hle. reflexivity.
Qed.
Print Assumptions C11_restart_refuted.
(** What holds: the restart never raises and still returns a valid partition of all nodes.
    Missing: any lower bound on its stability. *)
Theorem C11_restart_valid_partial :
  forall setord orders T S thr n_meta_iter_max n_sub_iter_max p,
    is_iteration_order setord -> shuffles orders -> valid p -> no_empty (cluster_list p) ->
    0 < num_nodes p -> has_out_flow (num_nodes p) T ->
    exists p' n_meta,
      find_louvain setord orders T S thr n_meta_iter_max n_sub_iter_max p = LDone p' n_meta /\
      valid p' /\ no_empty (cluster_list p') /\ num_nodes p' = num_nodes p.
Proof. exact find_louvain_restart_valid. Qed.
Print Assumptions C11_restart_valid_partial.

(** ** C12
    Full statement: at most n_meta_iter_max levels.  It is false by one: with
    n_meta_iter_max = 0 one level is performed. *)
Definition C12_statement : Prop :=
  forall setord orders T S thr n_meta_iter_max n_sub_iter_max p p' n_meta,
    find_louvain setord orders T S thr n_meta_iter_max n_sub_iter_max p = LDone p' n_meta ->
    n_meta <= n_meta_iter_max.
Theorem C12_meta_cap_refuted : ~ C12_statement.
Proof.
  intros H.
  specialize (H keep_order in_order T3 S3 0%num 0 10 (part_default 3)
                (part_of_list 3 [[1;0];[2]]) 1).
  assert (1 <= 0) by (apply H; vm_compute; reflexivity). lia.
Qed.
Print Assumptions C12_meta_cap_refuted.
(** What holds: one level more than the cap, never an endless loop; and at most
    n_sub_iter_max - 1 sweeps per level ([n_loop] starts at 1). *)
Theorem C12_meta_cap_partial :
  forall setord orders T S thr n_meta_iter_max n_sub_iter_max p,
    match find_louvain setord orders T S thr n_meta_iter_max n_sub_iter_max p with
    | LDone _ n_meta => n_meta <= n_meta_iter_max + 1
    | LRaised _ => True
    | LFuel => False
    end.
Proof. exact find_louvain_cap. Qed.
Print Assumptions C12_meta_cap_partial.
Theorem C12_sub_cap :
  forall setord S neighs orders thr n_sub_iter_max p,
    match louvain_move_nodes setord S neighs orders thr n_sub_iter_max p with
    | MDone _ _ n_loop => n_loop - 1 <= n_sub_iter_max - 1
    | MRaised => True
    | MFuel => False
    end.
Proof. exact move_phase_cap. Qed.
Print Assumptions C12_sub_cap.

(** ** C13 *)
Theorem C13_entries_sum_to_total :
  forall S ps pt, valid ps -> valid pt ->
    sumN (length (cluster_list ps)) (fun s =>
      sumN (length (cluster_list pt)) (fun t => bi_autocov S ps pt s t))
    = sumN (num_nodes ps) (fun i => sumN (num_nodes pt) (fun j => S i j)).
Proof. exact bi_autocov_total. Qed.
Print Assumptions C13_entries_sum_to_total.
Theorem C13_stability_is_trace :
  forall S p, compute_stability S p
    = sumN (length (cluster_list p)) (fun s => bi_autocov S p p s s).
Proof. exact stability_trace. Qed.
Print Assumptions C13_stability_is_trace.
Theorem C13_stability_is_pair_sum :
  forall S p, valid p -> compute_stability S p = stability S p.
Proof. exact stability_spec. Qed.
Print Assumptions C13_stability_is_pair_sum.
Theorem C13_order_independent :
  forall S p q, Permutation (cluster_list p) (cluster_list q) ->
    compute_stability S p = compute_stability S q.
Proof. exact stability_order. Qed.
Print Assumptions C13_order_independent.
Example C13_nonvacuous :
  let p := part_of_list 3 [[2];[0;1]] in
  valid p /\ compute_stability S3 p = qf 4 9 /\ bi_autocov S3 p p 0 1 = qf (-2) 9.
Proof.
  split; [apply of_list_valid, partitionsb_sound; reflexivity|].
  split; apply Qc_is_canon; vm_compute; reflexivity.
Qed.

(** ** C14 *)
Theorem C14_incremental_update_exact :
  forall S ps pt k cis cit cfs cft ps' pt' s t,
    valid ps -> valid pt ->
    in_cluster (cluster_list ps) cis k -> in_cluster (cluster_list pt) cit k ->
    move_node ps k cfs = Done ps' -> move_node pt k cft = Done pt' ->
    s < length (cluster_list ps) -> t < length (cluster_list pt) ->
    exists R_out, new_R_moveout S ps pt k cis cit (bi_autocov S ps pt) = Some R_out /\
      new_R_moveto S ps pt k cis cit cfs cft R_out s t = bi_autocov S ps' pt' s t.
Proof.
  exact (fun S ps pt k cis cit cfs cft ps' pt' s t Hs Ht Hcs Hct Hms Hmt Ls Lt =>
    match new_R_moveout_defined S ps pt k cis cit (bi_autocov S ps pt) Hcs Hct with
    | ex_intro _ R HR => ex_intro _ R (conj HR
        (new_R_exact S ps pt k cis cit cfs cft ps' pt' R s t Hs Ht Hcs Hct Hms Hmt HR Ls Lt))
    end).
Qed.
Print Assumptions C14_incremental_update_exact.
Example C14_nonvacuous :
  let ps := part_of_list 3 [[0];[1;2]] in let pt := part_of_list 3 [[1];[0;2]] in
  valid ps /\ valid pt /\ in_cluster (cluster_list ps) 1 1 /\ in_cluster (cluster_list pt) 0 1 /\
  exists ps' pt', move_node ps 1 0 = Done ps' /\ move_node pt 1 1 = Done pt' /\
    bi_autocov S3 ps' pt' 0 1 <> bi_autocov S3 ps pt 0 1.
Proof.
  split; [apply of_list_valid, partitionsb_sound; reflexivity|].
  split; [apply of_list_valid, partitionsb_sound; reflexivity|].
  split; [exists [1;2]; split; [reflexivity|simpl; auto]|].
  split; [exists [1]; split; [reflexivity|simpl; auto]|].
  eexists _, _. split; [reflexivity|]. split; [reflexivity|].
  vm_compute. intros H. discriminate (f_equal this H).
Qed.

(** ** C15 *)
Theorem C15_row_sums :
  forall n p1 T i, row_stochastic n T -> sumN n p1 = 1%num -> i < n ->
    sumN n (fun j => compute_S p1 (vec_mat n p1 T) T i j) = 0%num.
Proof. exact S_row_sum. Qed.
Print Assumptions C15_row_sums.
Theorem C15_column_sums :
  forall n p1 T j, sumN n p1 = 1%num ->
    sumN n (fun i => compute_S p1 (vec_mat n p1 T) T i j) = 0%num.
Proof. exact S_col_sum. Qed.
Print Assumptions C15_column_sums.
Theorem C15_one_cluster :
  forall n p1 T, row_stochastic n T -> sumN n p1 = 1%num -> 0 < n ->
    compute_stability (compute_S p1 (vec_mat n p1 T) T) (full_partition n) = 0%num.
Proof. exact full_stability_zero. Qed.
Print Assumptions C15_one_cluster.
Example C15_nonvacuous : row_stochastic 3 T3 /\ sumN 3 u3 = 1%num /\ S3 0 1 = qf 2 9.
Proof.
  split; [|split; apply Qc_is_canon; vm_compute; reflexivity].
  intros i Hi. destruct i as [|[|[|i]]]; [| | |lia]; apply Qc_is_canon; reflexivity.
Qed.

(** ** C56
    Full statement: zero rows in T are harmless.  False: a cluster made of zero rows
    gives a meta node whose row cannot be normalised, and the constructor of the next
    level rejects the NaNs. *)
Definition C56_statement : Prop :=
  forall setord orders T S thr n_meta_iter_max n_sub_iter_max n,
    is_iteration_order setord -> shuffles orders -> 0 < n ->
    (forall i j, i < n -> j < n -> (0 <= T i j)%num) ->
    (forall i, i < n -> sumN n (T i) = 1%num \/ sumN n (T i) = 0%num) ->
    exists p' n_meta,
      find_louvain setord orders T S thr n_meta_iter_max n_sub_iter_max (part_default n) = LDone p' n_meta.
Definition T3z : mat := of_rows [[0;1;0];[1;0;0];[0;0;0]]%num.
Theorem C56_zero_rows_refuted : ~ C56_statement.
Proof.
  intros H.
  destruct (H keep_order in_order T3z (compute_S u3 (vec_mat 3 u3 T3z) T3z) 0%num 10 10 3
              keep_order_ok in_order_ok) as (p' & n' & Hl).
  - lia.
  - intros i j Hi Hj. destruct i as [|[|[|i]]]; [| | |lia];
      (destruct j as [|[|[|j]]]; [| | |lia]); vm_compute; discriminate.
  - intros i Hi. destruct i as [|[|[|i]]]; [left|left|right|lia]; apply Qc_is_canon; reflexivity.
  - vm_compute in Hl. discriminate.
Qed.
Print Assumptions C56_zero_rows_refuted.
(** What holds: with at least some flow out of every node nothing is raised (C10); with
    zero rows the only failure is that one, and the partition reached before it is valid
    and not worse than the singletons. *)
Theorem C56_zero_rows_partial :
  forall setord orders T S thr n_meta_iter_max n_sub_iter_max n,
    is_iteration_order setord -> shuffles orders -> 0 < n -> S_is_zero n S = false ->
    exists p', valid p' /\ no_empty (cluster_list p') /\ num_nodes p' = n /\
      (compute_stability S (part_default n) <= compute_stability S p')%num /\
      ((exists n_meta, find_louvain setord orders T S thr n_meta_iter_max n_sub_iter_max (part_default n)
                       = LDone p' n_meta) \/
       (find_louvain setord orders T S thr n_meta_iter_max n_sub_iter_max (part_default n) = LRaised p' /\
        exists c, In c (cluster_list p') /\ sumL (fun i => sumN n (T i)) c = 0%num)).
Proof. exact find_louvain_zero_rows. Qed.
Print Assumptions C56_zero_rows_partial.
