(** What a user expects of the transition matrices of a random walk in continuous time. *)
From Coq Require Import Reals.
From Verif Require Import Base GapModel EventsSpec ExpModel.
Local Open Scope R_scope.

(** the same entries *)
Definition same (n : nat) (F G : rmat) : Prop := forall i j, (i < n)%nat -> (j < n)%nat -> F i j = G i j.
Definition prob_matrix (n : nat) (F : rmat) : Prop :=
  (forall i j, (i < n)%nat -> (j < n)%nat -> 0 <= F i j) /\ forall i, (i < n)%nat -> rsum n (F i) = 1.
Definition times_matrix (n : nat) (F G : rmat) : rmat := fun i j => rsum n (fun c => F i c * G c j).
(** a walker can go from one node to another *)
Inductive reaches (n : nat) (step : nat -> nat -> Prop) : nat -> nat -> Prop :=
| reaches_refl i : (i < n)%nat -> reaches n step i i
| reaches_step i j k : (i < n)%nat -> (j < n)%nat -> step i j -> reaches n step j k -> reaches n step i k.
(** a node where walkers stay *)
Definition still (n : nat) (L : nat -> nat -> num) (i : nat) : Prop := forall j, (j < n)%nat -> L i j = 0%num.
(** total difference of the probabilities of a walker that starts at i *)
Definition difference (n : nat) (F G : rmat) (i : nat) : R := rsum n (fun j => Rabs (F i j - G i j)).
(** A undirected graph, and the number of neighbours, or 1 for a node without any *)
Definition weight (n : nat) (adj : nat -> nat -> bool) (i : nat) : R :=
  match degree n adj i with O => 1 | S d => INR (S d) end.
(** entries closer and closer to those of [G] as time passes *)
Definition tends_to (n : nat) (mats : R -> rmat -> Prop) (G : rmat) : Prop :=
  forall eps, 0 < eps -> exists X, forall x F, X <= x -> mats x F -> forall i j, (i < n)%nat -> (j < n)%nat -> Rabs (F i j - G i j) < eps.
