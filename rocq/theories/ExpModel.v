(** Model of one exponential of a Laplacian over the real numbers, /repo/src/flowstab/temporal_network.py.

    TransModel.v has the caches and the order of the calls, over the rationals and for any function in
    the place of [expm].  Here doubles are real numbers and [expm] of scipy is the exponential: the sum
    of its series.  Rounding is left out, and so are [thresh_ratio] and parallel runs. *)
From Coq Require Import Reals Qreals.
From Verif Require Import Base GapModel.
Local Open Scope R_scope.

(** rational entries as real numbers *)
Definition q2r (x : num) : R := Q2R (this x).
Definition toR (A : nat -> nat -> num) : rmat := fun i j => q2r (A i j).

(** powers of a matrix and the contract of [expm] *)
Fixpoint rpow (n : nat) (M : rmat) (k : nat) : rmat :=
  match k with
  | O => reye
  | S k => fun i j => rsum n (fun c => M i c * rpow n M k c j)
  end.
Definition expm (n : nat) (M F : rmat) : Prop :=
  forall i j, (i < n)%nat -> (j < n)%nat -> infinite_sum (fun k => rpow n M k i j / INR (fact k)) (F i j).

(** One step of [compute_inter_transition_matrices], l.1419-1427, where [x] is [tau_k*lamda]: the
    identity when the Laplacian has no entries, otherwise [expm(-tau_k*lamda*L)].  [some_entry]
    is [getnnz() != 0]; were zeros stored, the exponential would be the identity as well. *)
Definition some_entry (n : nat) (L : nat -> nat -> num) : bool :=
  existsb (fun i => existsb (fun j => negb (qeqb (L i j) 0%num)) (seq 0 n)) (seq 0 n).
Definition scaled (x : R) (L : nat -> nat -> num) : rmat := fun i j => - x * toR L i j.
Definition inter_matrix (n : nat) (x : R) (L : nat -> nat -> num) (F : rmat) : Prop :=
  if some_entry n L then expm n (scaled x L) F
  else forall i j, (i < n)%nat -> (j < n)%nat -> F i j = reye i j.

(** [compute_subspace_expm], l.2276-2358, without [thresh_ratio]: [cmp_indices], the submatrices,
    their exponentials [subs], and the rows put together, l.2330-2345; entries that are not stored
    are zero. *)
Definition cmp_indices (n : nat) (lab : nat -> nat) (c : nat) : list nat := filter (fun j => Nat.eqb (lab j) c) (seq 0 n).
Definition sub_matrix (idx : list nat) (A : rmat) : rmat := fun a b => A (nth a idx O) (nth b idx O).
Fixpoint position (x : nat) (l : list nat) : nat :=
  match l with
  | [] => O
  | y :: r => if Nat.eqb y x then O else S (position x r)
  end.
Definition put_together (n : nat) (lab : nat -> nat) (subs : nat -> rmat) : rmat := fun row j =>
  if Nat.eqb (lab j) (lab row)
  then subs (lab row) (position row (cmp_indices n lab (lab row))) (position j (cmp_indices n lab (lab row)))
  else 0.
(** [inplace_csr_row_normalize], l.2352 *)
Definition row_normalised (n : nat) (A : rmat) : rmat := fun i j => A i j / rsum n (A i).
Definition subspace_expm_real (n : nat) (A : rmat) (n_comp : nat) (lab : nat -> nat) (normalize : bool) (F : rmat) : Prop :=
  exists subs, (forall c, (c < n_comp)%nat -> expm (length (cmp_indices n lab c)) (sub_matrix (cmp_indices n lab c) A) (subs c)) /\
    F = if normalize then row_normalised n (put_together n lab subs) else put_together n lab subs.
