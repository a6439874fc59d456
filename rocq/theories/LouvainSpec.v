(** Stability of a partition and related notions, stated without reference to the
    way the code computes them. *)
From Verif Require Import Base PartitionModel PartitionSpec LouvainModel.

(** do two nodes share a cluster? *)
Definition sameb (p : partition) (i j : nat) : bool :=
  existsb (fun c => memb i c && memb j c) (cluster_list p).

(** stability: the sum of the autocovariance over all ordered pairs of nodes
    sharing a cluster *)
Definition stability (S : mat) (p : partition) : num :=
  sumN (num_nodes p) (fun i => sumN (num_nodes p) (fun j =>
    if sameb p i j then S i j else 0%num)).

(** neighbour lists name existing nodes *)
Definition neighs_in_range (n : nat) (neighs : nat -> list nat) : Prop :=
  forall x y, x < n -> In y (neighs x) -> y < n.
(** a visiting order names existing nodes *)
Definition order_in_range (n : nat) (o : list nat) : Prop := forall x, In x o -> x < n.
(** every sweep of every level visits the nodes in some shuffled order *)
Definition shuffles (orders : nat -> nat -> nat -> list nat) : Prop :=
  forall level k n, Permutation (orders level k n) (seq 0 n).

(** [q] (on original nodes) is what the partition [mq] of the clusters of [p] stands
    for: two nodes share a cluster of [q] when their clusters share a cluster of [mq] *)
Definition stands_for (p mq q : partition) : Prop :=
  num_nodes q = num_nodes p /\
  forall x y, together q x y <->
    exists a b, in_cluster (cluster_list p) a x /\ in_cluster (cluster_list p) b y /\ together mq a b.

(** [T] has non-negative entries and no zero row *)
Definition has_out_flow (n : nat) (T : mat) : Prop :=
  (forall i j, i < n -> j < n -> (0 <= T i j)%num) /\
  (forall i, i < n -> (0 < sumN n (T i))%num).
(** rows sum to one; entries of the vector sum to one *)
Definition row_stochastic (n : nat) (T : mat) : Prop := forall i, i < n -> sumN n (T i) = 1%num.

(** a matrix given by its rows, for examples *)
Definition of_rows (l : list (list num)) : mat := fun i j => nth j (nth i l []) 0%num.
