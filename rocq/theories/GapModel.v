(** Model of [find_spectral_gap], /repo/src/flowstab/temporal_network.py l.2377-2401.

    Simplifications: doubles are real numbers, and the sparse matrix [L] is the function of its
    entries.  [eigsh] of scipy is not modelled: its contract is the definition [eigsh] below.
    Division by zero (a node without neighbours) gives numpy's [inf]; the properties are about
    connected graphs, where it does not happen. *)
From Coq Require Import Reals.
From Verif Require Import Base.
Local Open Scope R_scope.

(** an array of the n by n matrix *)
Definition rmat := nat -> nat -> R.
Definition rsum (n : nat) (f : nat -> R) : R := fold_right Rplus 0 (map f (seq 0 n)).

(** [eye(L.shape[0])], l.2381-2383 *)
Definition reye : rmat := fun i j => if Nat.eqb i j then 1 else 0.
(** [degs = np.diff((I-Lcsr).indptr)], l.2385: the number of stored entries of each row of the
    difference; scipy's subtraction stores no zeros *)
Definition degs (n : nat) (L : rmat) (i : nat) : R :=
  INR (length (filter (fun j => if Req_EM_T (reye i j - L i j) 0 then false else true) (seq 0 n))).
(** [Lsym = D12 @ Lcsr @ Dm12], l.2387-2392 *)
Definition lsym (n : nat) (L : rmat) : rmat :=
  fun i j => sqrt (degs n L i) * L i j * (1 / sqrt (degs n L j)).
(** [Pi = np.vstack([degs/degs.sum()]*L.shape[0])], l.2395 *)
Definition stat_rows (n : nat) (L : rmat) : rmat :=
  fun _ j => degs n L j / rsum n (degs n L).
(** [Lsym.toarray()-Pi], l.2398 *)
Definition gap_matrix (n : nat) (L : rmat) : rmat := fun i j => lsym n L i j - stat_rows n L i j.

(** [mu] is an eigenvalue of [M] *)
Definition eigenvalue (n : nat) (M : rmat) (mu : R) : Prop :=
  exists v : nat -> R, (exists i, (i < n)%nat /\ v i <> 0) /\
    forall i, (i < n)%nat -> rsum n (fun j => M i j * v j) = mu * v i.
(** contract of [eigsh(M, 1, sigma=0, return_eigenvectors=False)] of scipy on a symmetric matrix:
    the eigenvalue nearest to [sigma] *)
Definition eigsh (n : nat) (M : rmat) (g : R) : Prop :=
  eigenvalue n M g /\ forall mu, eigenvalue n M mu -> Rabs g <= Rabs mu.
(** the function may return [g], l.2398-2401 *)
Definition find_spectral_gap (n : nat) (L : rmat) (g : R) : Prop := eigsh n (gap_matrix n L) g.
