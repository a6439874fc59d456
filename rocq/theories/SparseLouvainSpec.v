(** When a SparseAutocovMat can be clustered: what the Louvain loop needs of its matrix. *)
From Verif Require Import Base LouvainSpec SparseModel SparseSpec AutocovModel AutocovSpec.

(** [A] was built from a PT without repeated positions, with non-negative entries and no
    zero row, and from probabilities summing to one *)
Definition usable (n : nat) (PT : csr) (p : probs) (sym : bool) (A : autocov) : Prop :=
  built n PT p sym A /\ no_repetition PT /\ normalised_probs n p /\ has_out_flow n (value PT).

(** the order in which python iterates over a set depends on the set only *)
Definition by_set (setord : list nat -> list nat) : Prop :=
  forall l l', Permutation l l' -> setord l = setord l'.
