(** Vocabulary of C192: other numbers for the nodes. *)
From Verif Require Import Base LouvainModel.

(** the nodes 0..n-1 get the new numbers s 0, ..., s (n-1); [t] is the way back *)
Definition renaming (n : nat) (s t : nat -> nat) : Prop :=
  (forall i, i < n -> s i < n /\ t (s i) = i) /\ (forall i, i < n -> t i < n /\ s (t i) = i).
(** a matrix for the new numbers *)
Definition renamed (t : nat -> nat) (A : mat) : mat := fun i j => A (t i) (t j).
