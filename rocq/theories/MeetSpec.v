(** Vocabulary of the statements about nodes that the search may put together. *)
From Coq Require Import Relations.
From Verif Require Import Base LouvainModel LouvainSpec SparseModel SparseSpec AutocovModel AutocovSpec SparseLouvainModel SparseLouvainSpec
  EventsModel EventsSpec TransModel TransSpec FlowModel FlowSpec.

(** nodes connected by contacts, one after the other in any order of time *)
Definition acquainted (t : table) : nat -> nat -> Prop :=
  clos_refl_sym_trans nat (fun i j => exists e, In e (map snd t) /\ joins e i j).
(** walkers that start at [i] and at [j] can be at the same node after the same number of steps; and
    nodes connected in this way *)
Definition can_meet (n : nat) (T : nat -> mat) (m i j : nat) : Prop :=
  i < n /\ j < n /\ exists k c, k < m /\ c < n /\ (0 < T k i c)%num /\ (0 < T k j c)%num.
Definition flows_together (n : nat) (T : nat -> mat) (m : nat) : nat -> nat -> Prop :=
  clos_refl_sym_trans nat (can_meet n T m).
(** nodes connected by walkers of the flow: after some number of steps they can be at the other node *)
Definition flow_connects (n : nat) (T : nat -> mat) (m : nat) : nat -> nat -> Prop :=
  clos_refl_sym_trans nat (fun i j => i < n /\ j < n /\ exists k, k < m /\ (0 < T k i j)%num).
(** the SparseAutocovMat [A] holds the integral [M] of walkers that start with the probabilities [d],
    without stored zeros; network_clustering.py l.1925-1930 *)
Definition holds (n : nat) (d : nat -> num) (M : mat) (PT : csr) (p : probs) (A : autocov) : Prop :=
  usable n PT p true A /\ positive_entries PT /\ (forall i j, i < n -> j < n -> p0_at p i j = (d i * d j)%num) /\
  forall i j, i < n -> j < n -> toarray A i j = M i j.
(** the exponential of a matrix has entries within its connected components only *)
Definition stays_within (n : nat) (E : num -> mat -> mat) : Prop :=
  forall x L i j, i < n -> j < n -> E x L i j <> 0%num -> linked n (fun a b => L a b <> 0%num) i j.
