(** Vocabulary of the statements about information measures. *)
From Verif Require Import Base PartitionModel PartitionSpec InfoModel.

(** the clusters contain every node of [V] exactly once *)
Definition covers (V : list nat) (P : list (list nat)) : Prop := NoDup V /\ Permutation (concat P) V.
(** and no cluster is empty *)
Definition partition_of (V : list nat) (P : list (list nat)) : Prop :=
  NoDup V /\ Permutation (concat P) V /\ ~ In [] P.
(** two nodes in one cluster *)
Definition joined (P : list (list nat)) (x y : nat) : Prop := exists c, In c P /\ In x c /\ In y c.
(** the same clustering, whatever the order of the clusters and of their nodes *)
Definition same_clustering (P Q : list (list nat)) : Prop := forall x y, joined P x y <-> joined Q x y.
(** all nodes in one cluster *)
Definition one_cluster (V : list nat) (P : list (list nat)) : Prop := forall x y, In x V -> In y V -> joined P x y.

(** which nodes an argument puts together, and that it assigns every node of [V] once *)
Definition arg_joined (a : clusters_arg) (x y : nat) : Prop :=
  match a with
  | AList cl => joined cl x y
  | ADict d => exists i, dget d x = Some i /\ dget d y = Some i
  | APartition p => PartitionSpec.together p x y
  end.
Definition arg_covers (V : list nat) (a : clusters_arg) : Prop :=
  match a with
  | AList cl => covers V cl
  | ADict d => NoDup V /\ Permutation (map fst d) V
  | APartition p => valid p /\ V = seq 0 (num_nodes p)
  end.
Definition arg_same (a b : clusters_arg) : Prop := forall x y, arg_joined a x y <-> arg_joined b x y.
(** no cluster without nodes, and no unused cluster number below the largest *)
Definition arg_no_gap (a : clusters_arg) : Prop :=
  match a with
  | AList cl => ~ In [] cl
  | ADict d => forall x i j, In (x, i) d -> j <= i -> exists y, In (y, j) d
  | APartition p => ~ In [] (cluster_list p)
  end.

(** the double sum over all pairs of clusters, in bits, with the number of common nodes *)
Definition common (c1 c2 : list nat) : nat := length (filter (fun x => if in_dec Nat.eq_dec x c2 then true else false) c1).
Definition pair_bits (c1 c2 : list nat) : R :=
  match common c1 c2 with
  | 0 => 0
  | k => INR k * (ln (INR (length c1) * INR (length c2) / (INR k * INR k)) / ln 2)
  end%R.
Definition double_sum (P Q : list (list nat)) : R :=
  fold_right (fun c1 s => fold_right (fun c2 t => (pair_bits c1 c2 + t)%R) s Q) 0%R P.
(** N log2 N *)
Definition n_bits (N : nat) : R := (INR N * (ln (INR N) / ln 2))%R.
