(** Vocabulary of the statements about the clustering of saved integrals. *)
From Verif Require Import Base PartitionModel PartitionSpec LouvainModel LouvainSpec SparseModel SparseSpec AutocovModel AutocovSpec
  TransModel TransSpec MultiModel MultiSpec FlowSpec CovModel CovSpec ClustModel.

(** ** Integrals *)
(** an upper triangle with non-negative entries, in which every node appears *)
Definition integral_ok (n : nat) (M : mat) (t : num) : Prop :=
  0 < n /\ (0 < t)%num /\ (forall i j, j < i -> M i j = 0%num) /\ (forall i j, i < n -> j < n -> (0 <= M i j)%num) /\
  (forall i, i < n -> exists j, j < n /\ (0 < symmetrised M i j)%num).
(** what connected_components returns: nodes with the same label are those that are connected *)
Definition labels_of (n : nat) (W : mat) (label : list nat) : Prop :=
  length label = n /\ forall x y, x < n -> y < n -> nth x label 0 = nth y label 0 <-> linked n W x y.

(** ** Partitions *)
(** sum of S over the pairs of nodes that share a cluster *)
Definition total (S : mat) (cl : list (list nat)) : num := sumL (fun c => sum_over S c c) cl.
(** nodes that share a cluster are connected *)
Definition within_components (n : nat) (W : mat) (cl : list (list nat)) : Prop :=
  forall c x y, In c cl -> In x c -> In y c -> linked n W x y.
(** the same sets of nodes, in any order *)
Definition same_set (c d : list nat) : Prop := forall x, In x c <-> In x d.
Definition same_partition (cl cl' : list (list nat)) : Prop :=
  (forall c, In c cl -> exists d, In d cl' /\ same_set c d) /\ (forall d, In d cl' -> exists c, In c cl /\ same_set c d).
(** With --only_largest_comp node 0 stands for the nodes outside of the component and node
    i+1 for the i-th node of the component. *)
Definition members (outside nodes : list nat) (i : nat) : list nat := match i with 0 => outside | S i => [nth i nodes 0] end.
Definition unfolded (outside nodes : list nat) (cl : list (list nat)) : list (list nat) := map (flat_map (members outside nodes)) cl.

(** ** Files *)
(** the files after any number of runs, each stopped anywhere (or not) between two writes;
    runs differ in their options and in what they compute *)
Inductive file_history (can_save_temp : bool) : results -> Prop :=
| files_start : file_history can_save_temp (mkResults None None)
| files_run d b s q : file_history can_save_temp d -> (b = true -> can_save_temp = true) ->
    file_history can_save_temp (fold_left apply (firstn q (worker b s d)) d).
