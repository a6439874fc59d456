(** Properties C01-C06: class Partition. *)
From Verif Require Import Base PartitionModel PartitionSpec PartitionProofs.

(** ** C01 *)
Theorem C01_partition_invariant :
  forall n p0 os p, constructed n p0 -> prun p0 os = Some p ->
    valid p /\ num_nodes p = n.
Proof. exact history_valid. Qed.
Print Assumptions C01_partition_invariant.

(** ... and such a history never raises as long as it names existing nodes and clusters. *)
Theorem C01_no_exception :
  forall n p0 os, constructed n p0 -> ops_in_range p0 os -> exists p, prun p0 os = Some p.
Proof. exact history_total. Qed.
Print Assumptions C01_no_exception.

Example C01_nonvacuous :
  constructed 5 (part_of_list 5 [[3;1];[];[0;4];[2]]) /\
  ops_in_range (part_of_list 5 [[3;1];[];[0;4];[2]]) [PMove 2 0; PClean; PMove 0 0; PMove 4 0; PClean] /\
  prun (part_of_list 5 [[3;1];[];[0;4];[2]]) [PMove 2 0; PClean; PMove 0 0; PMove 4 0; PClean]
  = Some (mkPart 5 [[4;0;2;3;1]] [(4,0);(0,0);(2,0);(3,0);(1,0)]).
Proof.
  split; [|split].
  - apply ctor_list, partitionsb_sound. reflexivity.
  - simpl. repeat split; lia.
  - vm_compute. reflexivity.
Qed.
Example C01_dict_nonvacuous :
  exists p, part_of_dict 3 [(0,5);(2,1);(1,5)] = Some p /\ dict_covers 3 [(0,5);(2,1);(1,5)] /\
    cluster_list p = [[2];[1;0]].
Proof.
  eexists. split; [vm_compute; reflexivity|]. split; [|reflexivity].
  split; [repeat (apply NoDup_cons; [simpl; intuition lia|]); apply NoDup_nil|]. intros x. simpl. intuition lia.
Qed.

(** ** C02 *)
Theorem C02_move_frame :
  forall p x c p', valid p -> x < num_nodes p -> move_node p x c = Done p' ->
    in_cluster (cluster_list p') c x /\
    (forall y, y <> x -> forall i,
       in_cluster (cluster_list p') i y <-> in_cluster (cluster_list p) i y) /\
    (forall y z, y <> x -> z <> x -> (together p' y z <-> together p y z)).
Proof. exact move_frame. Qed.
Print Assumptions C02_move_frame.

Theorem C02_remove_empty_frame :
  forall p,
    (forall x y, together (remove_empty_clusters p) x y <-> together p x y) /\
    no_empty (cluster_list (remove_empty_clusters p)) /\
    cluster_list (remove_empty_clusters p) = filter nonempty (cluster_list p) /\
    (valid p -> valid (remove_empty_clusters p)).
Proof. exact clean_frame. Qed.
Print Assumptions C02_remove_empty_frame.

Example C02_nonvacuous :
  let p := part_of_list 4 [[0;1];[2];[3]] in
  valid p /\ exists p', move_node p 2 0 = Done p' /\ cluster_list p' = [[2;0;1];[];[3]] /\
  cluster_list (remove_empty_clusters p') = [[2;0;1];[3]].
Proof.
  split.
  - apply of_list_valid, partitions_perm. apply Permutation_refl.
  - eexists. split; [vm_compute; reflexivity|]. split; reflexivity.
Qed.

(** ** C03 *)
Theorem C03_dict_roundtrip :
  forall n p0 os p, constructed n p0 -> 0 < n -> prun p0 os = Some p ->
    no_empty (cluster_list p) ->
    exists q, part_of_dict n (n2c p) = Some q /\
      same_sets (cluster_list q) (cluster_list p) /\ same_dict (n2c q) (n2c p).
Proof. exact roundtrip_dict. Qed.
Print Assumptions C03_dict_roundtrip.

Theorem C03_list_roundtrip :
  forall p, valid p -> no_empty (cluster_list p) ->
    cluster_list (part_of_list (num_nodes p) (cluster_list p)) = cluster_list p /\
    same_dict (n2c (part_of_list (num_nodes p) (cluster_list p))) (n2c p).
Proof. exact roundtrip_list. Qed.
Print Assumptions C03_list_roundtrip.

Example C03_nonvacuous :
  let p := part_of_list 4 [[2];[3;0];[1]] in
  constructed 4 p /\ no_empty (cluster_list p) /\ valid p /\
  exists q, part_of_dict 4 (n2c p) = Some q /\ cluster_list q = [[2];[0;3];[1]].
Proof.
  assert (H : partitions 4 [[2];[3;0];[1]]).
  { apply partitionsb_sound. reflexivity. }
  split; [now constructor|]. split; [repeat constructor; discriminate|].
  split; [now apply of_list_valid|]. eexists. split; [vm_compute; reflexivity|reflexivity].
Qed.

(** ** C04
    Full statement: acceptance implies being a partition of range(n).  It is
    false: only the number of elements is compared with num_nodes, so nodes
    outside range(n) are accepted. *)
Definition C04_statement : Prop :=
  forall n cl p, Forall (@NoDup nat) cl -> part_of_list_checked n cl = Some p -> partitions n cl.
Theorem C04_check_integrity_refuted : ~ C04_statement.
Proof.
  intros H.
  specialize (H 2 [[0];[5]] (part_of_list 2 [[0];[5]])).
  assert (Hp : partitions 2 [[0];[5]]).
  { apply H; [repeat constructor; simpl; tauto|vm_compute; reflexivity]. }
  destruct Hp as [_ [_ Hc]]. assert (H5 : 5 < 2); [|lia].
  apply Hc. exists 1, [5]. split; [reflexivity|left; reflexivity].
Qed.
Print Assumptions C04_check_integrity_refuted.

(** What holds: exactly when the check passes; and it is sound for clusters made
    of nodes of the network, and never rejects a partition. *)
Theorem C04_check_integrity_sound_partial :
  forall n cl p, Forall (@NoDup nat) cl ->
    (forall i x, in_cluster cl i x -> x < n) ->
    part_of_list_checked n cl = Some p -> partitions n cl /\ valid p.
Proof. exact checked_in_range_partition. Qed.
Print Assumptions C04_check_integrity_sound_partial.
Theorem C04_check_integrity_complete :
  forall n cl, partitions n cl -> part_of_list_checked n cl = Some (part_of_list n cl).
Proof. exact checked_complete. Qed.
Print Assumptions C04_check_integrity_complete.
Theorem C04_check_integrity_exact :
  forall p, check_integrity p = true <->
    (forall i j x, in_cluster (cluster_list p) i x -> in_cluster (cluster_list p) j x -> i = j) /\
    length (concat (cluster_list p)) = num_nodes p.
Proof. exact check_integrity_iff. Qed.
Print Assumptions C04_check_integrity_exact.

Example C04_examples :
  part_of_list_checked 3 [[0;2];[1]] = Some (part_of_list 3 [[0;2];[1]]) /\
  part_of_list_checked 3 [[0;2];[1;2]] = None /\
  part_of_list_checked 3 [[0;2]] = None.
Proof. repeat split; vm_compute; reflexivity. Qed.

(** ** C05 *)
Theorem C05_indicator_dense :
  forall p r i,
    (in_cluster (cluster_list p) i r -> indicator_dense p r i = 1) /\
    (~ in_cluster (cluster_list p) i r -> indicator_dense p r i = 0).
Proof. exact indicator_dense_spec. Qed.
Print Assumptions C05_indicator_dense.
Theorem C05_indicator_sparse_same :
  forall p r i, valid p -> i < length (cluster_list p) ->
    indicator_sparse p r i = indicator_dense p r i.
Proof. exact indicator_agree. Qed.
Print Assumptions C05_indicator_sparse_same.
Theorem C05_row_sums :
  forall p r, valid p -> r < num_nodes p ->
    sum_nat (fun i => indicator_dense p r i) (length (cluster_list p)) = 1.
Proof. exact indicator_row_sum. Qed.
Print Assumptions C05_row_sums.
Theorem C05_column_sums :
  forall p i, valid p -> i < length (cluster_list p) ->
    sum_nat (fun r => indicator_dense p r i) (num_nodes p) = length (nth i (cluster_list p) []).
Proof. exact indicator_col_sum. Qed.
Print Assumptions C05_column_sums.
Example C05_nonvacuous :
  let p := part_of_list 3 [[2;0];[1]] in
  valid p /\ map (fun r => map (indicator_sparse p r) [0;1]) [0;1;2] = [[1;0];[0;1];[1;0]].
Proof.
  split; [|reflexivity]. apply of_list_valid, partitionsb_sound. reflexivity.
Qed.

(** ** C06
    Full statement: a raising move leaves the object as it was.  It is false: the
    dictionary and the source cluster are changed before the target cluster is
    looked up, so the node is lost. *)
Definition C06_statement : Prop :=
  forall p x c p', valid p -> move_node p x c = Raised p' -> p' = p.
Theorem C06_move_atomic_refuted :
  ~ C06_statement /\
  (exists p p', valid p /\ move_node p 0 7 = Raised p' /\ ~ valid p' /\
     forall i, ~ in_cluster (cluster_list p') i 0).
Proof.
  set (p := part_of_list 2 [[0];[1]]).
  set (p' := mkPart 2 [[];[1]] [(0,7);(1,1)]).
  assert (Hv : valid p) by (apply of_list_valid, partitions_perm; apply Permutation_refl).
  assert (Hm : move_node p 0 7 = Raised p') by (vm_compute; reflexivity).
  assert (Hn : forall i, ~ in_cluster (cluster_list p') i 0).
  { intros i Hi. apply in_cluster_nth in Hi. simpl in Hi. destruct Hi as [_ Hi].
    destruct i as [|[|[|i]]]; simpl in Hi; intuition discriminate. }
  split.
  - intros H. specialize (H p 0 7 p' Hv Hm). discriminate.
  - exists p, p'. split; [exact Hv|]. split; [exact Hm|]. split; [|exact Hn].
    intros [[_ [_ Hc]] _]. destruct (proj1 (Hc 0)) as [i Hi]; [simpl; lia|]. now apply (Hn i).
Qed.
Print Assumptions C06_move_atomic_refuted.
(** What holds: a call naming an unknown node is rejected before any change, and a
    call naming an existing node and cluster never raises. *)
Theorem C06_move_atomic_partial :
  forall p x c, valid p ->
    (num_nodes p <= x -> move_node p x c = Raised p) /\
    (x < num_nodes p -> c < length (cluster_list p) -> exists p', move_node p x c = Done p' /\ valid p').
Proof.
  exact (fun p x c Hv => conj (move_unknown p x c Hv) (move_node_valid p x c Hv)).
Qed.
Print Assumptions C06_move_atomic_partial.
