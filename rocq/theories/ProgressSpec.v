(** Specification of the progress of a search and of symmetrised triangular matrices. *)
From Verif Require Import Base PartitionModel PartitionSpec LouvainModel LouvainSpec.

(** [rec] is the history of a search over the partitions of [n] nodes that starts at [p0],
    ends at [p1] and made [steps] steps: every stability recorded is the one of the
    partition recorded with it, no step loses stability and each step but the last gains
    more than the threshold. *)
Record history (S : mat) (thr : num) (n : nat) (p0 p1 : partition) (steps : nat)
  (rec : list (partition * num)) : Prop := {
  h_length : length rec = steps + 1;
  h_stability : forall q s, In (q, s) rec -> valid q /\ num_nodes q = n /\ s = stability S q;
  h_first : nth_error rec 0 = Some (p0, stability S p0);
  h_last : nth_error rec steps = Some (p1, stability S p1);
  h_gains : forall k q s q' s', nth_error rec k = Some (q, s) -> nth_error rec (k + 1) = Some (q', s') -> (s <= s')%num;
  h_steps : forall k q s q' s', nth_error rec k = Some (q, s) -> nth_error rec (k + 1) = Some (q', s') ->
    k + 1 < steps -> (s + thr < s')%num
}.

(** entries below the diagonal vanish *)
Definition upper_triangular (n : nat) (X : mat) : Prop := forall i j, i < n -> j < i -> X i j = 0%num.
(** entry (i, j) of X + X^T - diag(X) *)
Definition symmetrised (X : mat) (i j : nat) : num := if Nat.eqb i j then X i i else (X i j + X j i)%num.
