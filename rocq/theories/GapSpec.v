(** What a user expects of the spectral gap of a graph. *)
From Coq Require Import Reals.
From Verif Require Import Base GapModel.
Local Open Scope R_scope.

(** an undirected graph on the nodes 0..n-1 *)
Definition undirected (n : nat) (A : nat -> nat -> bool) : Prop :=
  forall i j, (i < n)%nat -> (j < n)%nat -> A i j = A j i.
(** every two nodes are joined by a path *)
Inductive path (n : nat) (A : nat -> nat -> bool) : nat -> nat -> Prop :=
| path_refl i : (i < n)%nat -> path n A i i
| path_step i j k : path n A i j -> (k < n)%nat -> A j k = true -> path n A i k.
Definition connected (n : nat) (A : nat -> nat -> bool) : Prop :=
  forall i j, (i < n)%nat -> (j < n)%nat -> path n A i j.
(** number of neighbours *)
Definition neighbours (n : nat) (A : nat -> nat -> bool) (i : nat) : nat := length (filter (A i) (seq 0 n)).
(** I - D^-1 A, the Laplacian of the random walk *)
Definition walk_laplacian (n : nat) (A : nat -> nat -> bool) : rmat :=
  fun i j => (if Nat.eqb i j then 1 else 0) - (if A i j then / INR (neighbours n A i) else 0).
Definition regular (n : nat) (A : nat -> nat -> bool) : Prop :=
  forall i j, (i < n)%nat -> (j < n)%nat -> neighbours n A i = neighbours n A j.
Definition rsymmetric (n : nat) (M : rmat) : Prop :=
  forall i j, (i < n)%nat -> (j < n)%nat -> M i j = M j i.
(** the smallest eigenvalue that is not zero *)
Definition spectral_gap (n : nat) (L : rmat) (g : R) : Prop :=
  eigenvalue n L g /\ 0 < g /\ forall mu, eigenvalue n L mu -> mu <> 0 -> g <= mu.
