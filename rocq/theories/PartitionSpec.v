(** What a valid partition is, independently of how the code computes. *)
From Verif Require Import Base PartitionModel.

(** [x] is in cluster number [i] *)
Definition in_cluster (cl : list (list nat)) (i x : nat) : Prop :=
  exists c, nth_error cl i = Some c /\ In x c.

(** the clusters are sets, pairwise disjoint, and cover exactly 0..n-1 *)
Definition partitions (n : nat) (cl : list (list nat)) : Prop :=
  Forall (@NoDup nat) cl /\
  (forall i j x, in_cluster cl i x -> in_cluster cl j x -> i = j) /\
  (forall x, x < n <-> exists i, in_cluster cl i x).

(** the dictionary is the inverse of the cluster list *)
Definition dict_matches (cl : list (list nat)) (d : dict) : Prop :=
  forall x i, dget d x = Some i <-> in_cluster cl i x.

Definition valid (p : partition) : Prop :=
  partitions (num_nodes p) (cluster_list p) /\ dict_matches (cluster_list p) (n2c p).

(** two nodes share a cluster *)
Definition together (p : partition) (x y : nat) : Prop :=
  exists i, in_cluster (cluster_list p) i x /\ in_cluster (cluster_list p) i y.

Definition no_empty (cl : list (list nat)) : Prop := Forall (fun c => c <> []) cl.

(** same clusters in the same order, as sets *)
Definition same_sets (cl1 cl2 : list (list nat)) : Prop :=
  Forall2 (fun a b => forall x : nat, In x a <-> In x b) cl1 cl2.
Definition same_dict (d1 d2 : dict) : Prop := forall x, dget d1 x = dget d2 x.

(** a dictionary (no repeated key) that assigns a cluster to exactly 0..n-1 *)
Definition keys (d : dict) : list nat := map fst d.
Definition dict_covers (n : nat) (d : dict) : Prop :=
  NoDup (keys d) /\ forall x, x < n <-> In x (keys d).

(** the three documented ways to obtain a fresh Partition of n nodes *)
Inductive constructed (n : nat) : partition -> Prop :=
| ctor_default : constructed n (part_default n)
| ctor_list cl : partitions n cl -> constructed n (part_of_list n cl)
| ctor_dict d p : dict_covers n d -> part_of_dict n d = Some p -> constructed n p.

(** every move of the history names an existing node and an existing cluster *)
Fixpoint ops_in_range (p : partition) (os : list pop) : Prop :=
  match os with
  | [] => True
  | o :: r =>
      match o with
      | PMove x c => x < num_nodes p /\ c < length (cluster_list p)
      | PClean => True
      end /\
      match pstep p o with Some p' => ops_in_range p' r | None => True end
  end.
