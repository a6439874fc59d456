(** Vocabulary of the statements about integrals with a density. *)
From Verif Require Import Base LouvainModel SparseSpec FlowSpec CovSpec ClustSpec.

(** an upper triangle with non-negative entries, and a probability vector that vanishes only
    at nodes that do not appear in it *)
Definition init_ok (n : nat) (M : mat) (t : num) (p : list num) : Prop :=
  0 < n /\ (0 < t)%num /\ length p = n /\ (forall i j, j < i -> M i j = 0%num) /\ (forall i j, i < n -> j < n -> (0 <= M i j)%num) /\
  (forall x, In x p -> (0 <= x)%num) /\ sumL (fun x => x) p = 1%num /\
  (forall i j, i < n -> j < n -> nth i p 0%num = 0%num -> symmetrised M i j = 0%num).
(** the integral of joint probabilities whose marginals are the density *)
Definition marginals (n : nat) (M : mat) (t : num) (p : list num) : Prop :=
  forall i, i < n -> sumN n (symmetrised M i) = (t * nth i p 0)%num.
(** a tolerance between 0 and 1, and a matrix in a format for which it is accepted *)
Definition tolerance_ok (compressed : bool) (rtol : option num) : Prop :=
  match rtol with None => True | Some r => compressed = true /\ (0 < r)%num /\ (r < 1)%num end.
(** nodes with positive probability *)
Definition present (n : nat) (p : list num) (x : nat) : Prop := x < n /\ (0 < nth x p 0)%num.
