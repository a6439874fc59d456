(** Properties C172 and C173: the recorded progress of a search and the normalisation of
    upper triangular matrices. *)
From Verif Require Import Base PartitionModel PartitionSpec PartitionProofs LouvainModel LouvainSpec LouvainProofs LouvainProps
  ProgressModel ProgressSpec ProgressProofs.

(** ** C172 *)
(** recording changes nothing to the search *)
Theorem C172_same_search :
  forall setord orders T S thr n_meta_iter_max n_sub_iter_max p old,
    fst (find_louvain_saving setord orders T S thr n_meta_iter_max n_sub_iter_max p old)
    = find_louvain setord orders T S thr n_meta_iter_max n_sub_iter_max p.
Proof. exact find_louvain_saving_fst. Qed.
Print Assumptions C172_same_search.
(** the expected property: whatever S, what a search on a new object has recorded is the
    history of that search, and ends with the partition found *)
Definition C172_statement : Prop :=
  forall setord orders T S thr n_meta_iter_max n_sub_iter_max n,
    is_iteration_order setord -> shuffles orders -> 0 < n -> has_out_flow n T ->
    exists p' n_meta rec,
      find_louvain_saving setord orders T S thr n_meta_iter_max n_sub_iter_max (part_default n) []
        = (LDone p' n_meta, rec) /\
      history S thr n (part_default n) p' n_meta rec.
(** it fails for an autocovariance of zeros: the single cluster returned is not recorded *)
Theorem C172_progress_refuted : ~ C172_statement.
Proof.
  intros H.
  destruct (H keep_order in_order T3 (fun _ _ => 0%num) 0%num 10 10 3 keep_order_ok in_order_ok)
    as (p' & n_meta & rec & E & Hh).
  - lia.
  - split.
    + intros i j Hi Hj. destruct i as [|[|[|i]]]; [| | |lia]; destruct j as [|[|[|j]]]; try lia; vm_compute; discriminate.
    + intros i Hi. destruct i as [|[|[|i]]]; [| | |lia]; vm_compute; reflexivity.
  - assert (Ep : p' = full_partition 3).
    { apply (f_equal fst) in E. vm_compute in E. injection E as <- <-. reflexivity. }
    assert (En : n_meta = 0) by (apply (f_equal fst) in E; vm_compute in E; injection E as <- <-; reflexivity).
    subst p' n_meta. assert (E1 := h_first _ _ _ _ _ _ _ Hh). assert (E2 := h_last _ _ _ _ _ _ _ Hh).
    rewrite E1 in E2. injection E2 as E2 _. vm_compute in E2. discriminate.
Qed.
Print Assumptions C172_progress_refuted.
(** otherwise the search appends its history to what the object had recorded *)
Theorem C172_progress_partial :
  forall setord orders T S thr n_meta_iter_max n_sub_iter_max n old,
    is_iteration_order setord -> shuffles orders -> 0 < n -> S_is_zero n S = false -> has_out_flow n T ->
    exists p' n_meta rec,
      find_louvain_saving setord orders T S thr n_meta_iter_max n_sub_iter_max (part_default n) old
        = (LDone p' n_meta, old ++ rec) /\
      history S thr n (part_default n) p' n_meta rec.
Proof. exact find_louvain_saving_spec. Qed.
Print Assumptions C172_progress_partial.
(** for an autocovariance of zeros one record is made, of the partition at the start *)
Theorem C172_zeros :
  forall setord orders T S thr n_meta_iter_max n_sub_iter_max n old,
    0 < n -> (forall i j, i < n -> j < n -> (qabs (S i j) < qf 1 1000000 / qn (n * n))%num) ->
    exists p' rec,
      find_louvain_saving setord orders T S thr n_meta_iter_max n_sub_iter_max (part_default n) old = (LDone p' 0, old ++ [rec]) /\
      cluster_list p' = [seq 0 n] /\ fst rec = part_default n /\ snd rec = sumN n (fun i => S i i).
Proof.
  intros setord orders T S thr nm ns n old Hn HS. apply S_is_zero_spec in HS.
  exists (full_partition n), (part_default n, compute_stability S (part_default n)).
  unfold find_louvain_saving. change (num_nodes (part_default n)) with n. rewrite HS. destruct (Nat.eqb_spec n 0); [lia|]. split; [reflexivity|].
  split; [now apply full_partition_clusters|]. split; [reflexivity|]. cbn [snd]. rewrite stability_eq.
  rewrite default_clusters. rewrite sumL_map. apply sumL_ext. intros i _. unfold block. rewrite !sumL_cons, !sumL_nil. ring.
Qed.
Print Assumptions C172_zeros.
Example C172_zeros_applies :
  0 < 3 /\ (forall i j, i < 3 -> j < 3 -> (qabs 0 < qf 1 1000000 / qn (3 * 3))%num) /\
  map (fun e => cluster_list (fst e)) (snd (find_louvain_saving keep_order in_order T3 (fun _ _ => 0%num) 0%num 10 10 (part_default 3) [])) = [[[0];[1];[2]]].
Proof. split; [lia|]. split; [intros; reflexivity|vm_compute; reflexivity]. Qed.
Example C172_applies :
  S_is_zero 3 S3 = false /\
  map (fun e => cluster_list (fst e)) (snd (find_louvain_saving keep_order in_order T3 S3 0%num 10 10 (part_default 3) []))
    = [[[0];[1];[2]]; [[1;0];[2]]; [[0;1];[2]]].
Proof. split; vm_compute; reflexivity. Qed.

(** ** C173 *)
(** the expected property, under the conditions the function states: positive values, square,
    upper triangular, no empty row whose sum is asked for *)
Definition C173_statement : Prop :=
  forall n row_sum X,
    upper_triangular n X -> (forall i j, i < n -> j < n -> (0 <= X i j)%num) -> (forall i, i < n -> (0 <= row_sum i)%num) ->
    (forall i, i < n -> row_sum i <> 0%num -> sumN n (X i) <> 0%num) ->
    forall k, k < n -> row_sum k <> 0%num -> sumN n (symmetrised (normalize_triu n row_sum X) k) = row_sum k.
Theorem C173_triu_refuted : ~ C173_statement.
Proof.
  intros H.
  specialize (H 2 (fun i => if Nat.eqb i 0 then qf 1 2 else 1%num) (of_rows [[0; 1]; [0; 1]]%num)).
  assert (E : sumN 2 (symmetrised (normalize_triu 2 (fun i => if Nat.eqb i 0 then qf 1 2 else 1%num) (of_rows [[0; 1]; [0; 1]]%num)) 1) = 1%num).
  { apply (H) with (k := 1).
    - intros i j Hi Hj. destruct i as [|[|i]]; [lia| |lia]. destruct j; [reflexivity|lia].
    - intros i j Hi Hj. destruct i as [|[|i]]; [| |lia]; (destruct j as [|[|j]]; [| |lia]); vm_compute; discriminate.
    - intros i Hi. destruct i as [|[|i]]; [| |lia]; vm_compute; discriminate.
    - intros i Hi _. destruct i as [|[|i]]; [| |lia]; vm_compute; discriminate.
    - lia.
    - vm_compute; discriminate. }
  vm_compute in E. discriminate.
Qed.
Print Assumptions C173_triu_refuted.
(** each row that is asked for either reaches its sum or has been emptied on the way; every
    row stays a multiple of what it was *)
Theorem C173_triu_partial :
  forall n row_sum X k,
    upper_triangular n X -> k < n -> row_sum k <> 0%num -> sumN n (X k) <> 0%num ->
    (exists c, forall j, normalize_triu n row_sum X k j = (c * X k j)%num) /\
    (sumN n (symmetrised (normalize_triu n row_sum X) k) = row_sum k \/
     forall j, normalize_triu n row_sum X k j = 0%num).
Proof.
  exact (fun n r X k H1 H2 H3 H4 => conj (normalize_triu_multiple n r X k) (normalize_triu_spec n r X k H1 H2 H3 H4)).
Qed.
Print Assumptions C173_triu_partial.
(** a matrix with the wanted sums is not changed *)
Theorem C173_unchanged :
  forall n row_sum X,
    (forall i, i < n -> sumN n (symmetrised X i) = row_sum i) ->
    forall i j, normalize_triu n row_sum X i j = X i j.
Proof. exact normalize_triu_fixed. Qed.
Print Assumptions C173_unchanged.
Example C173_applies :
  let X := of_rows [[qf 1 2; qf 1 4; 0%num]; [0%num; qf 1 2; qf 1 4]; [0%num; 0%num; qf 1 2]] in
  let F := normalize_triu 3 (fun _ => 1%num) X in
  (forall k, k < 3 -> sumN 3 (symmetrised F k) = 1%num) /\ F 0 0 = qf 2 3 /\ F 1 1 = qf 4 9 /\ F 2 2 = qf 7 9.
Proof.
  split; [|repeat split; apply Qc_is_canon; vm_compute; reflexivity].
  intros k Hk. destruct k as [|[|[|k]]]; [| | |lia]; apply Qc_is_canon; vm_compute; reflexivity.
Qed.
