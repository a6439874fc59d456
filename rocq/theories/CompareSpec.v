(** Vocabulary of the statements about comparing and sorting clusterings. *)
From Verif Require Import PartitionModel InfoModel InfoSpec Base.

(** np.argsort: positions by increasing value, ties in any order *)
Definition is_argsort (f : list num -> list nat) : Prop :=
  forall l, Permutation (f l) (seq 0 (length l)) /\
            StronglySorted (fun i j => (nth i l 0 <= nth j l 0)%num) (f l).
(** two sets have an element in common *)
Definition meets (a b : list nat) : Prop := exists x, In x a /\ In x b.
(** [k] is the number of unordered pairs of nodes with property [R] *)
Definition pair_count (R : nat -> nat -> Prop) (k : nat) : Prop :=
  exists L : list (nat * nat), NoDup L /\ length L = k /\ forall x y, In (x, y) L <-> x < y /\ R x y.
(** the Jaccard similarity of two sets: size of the intersection by size of the union *)
Definition similar (a b : list nat) : num :=
  (qn (common a b) / qn (length a + length b - common a b))%num.
(** jaccard_distance takes lists and dictionaries *)
Definition not_partition (a : clusters_arg) : Prop := match a with APartition _ => False | _ => True end.
