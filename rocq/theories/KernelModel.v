(** Model of two functions of the compiled modules that the package itself does not call:
    [compute_S_0t0], /repo/src/flowstab/_cython_fast_funcs.pyx l.92-112, and
    [csr_csc_matmul_countnnz], /repo/src/flowstab/_cython_sparse_stoch.pyx l.46-85.

    Numbers are exact; the arrays have the sizes that the loops assume. *)
From Verif Require Import Base LouvainModel SparseModel.

(** l.104-110: the sum over [k] is accumulated in S[i,j]; [1/pt[k]] raises ZeroDivisionError (the
    directive cdivision is not set) *)
Definition entry_0t0 (n : nat) (p0 pt : nat -> num) (T : mat) (i j : nat) : option num :=
  match fold_left (fun s k => match s with
                              | None => None
                              | Some s => if qeqb (pt k) 0%num then None else Some (s + p0 i * T i k * (1 / pt k) * T j k * p0 j)%num
                              end) (seq 0 n) (Some 0%num) with
  | Some s => Some (s - p0 i * p0 j)%num
  | None => None
  end.
(** the matrix as a list of rows; an exception in any entry ends the call *)
Fixpoint all_entries {A} (l : list (option A)) : option (list A) :=
  match l with
  | [] => Some []
  | Some a :: r => match all_entries r with Some r => Some (a :: r) | None => None end
  | None :: _ => None
  end.
Definition compute_S_0t0 (n : nat) (p0 pt : nat -> num) (T : mat) : option (list (list num)) :=
  all_entries (map (fun i => all_entries (map (fun j => entry_0t0 n p0 pt T i j) (seq 0 n))) (seq 0 n)).

(** l.74-77: the while loop; the list holds the row indices of the column of B from position l on, and the
    last position is not left *)
Fixpoint advance (a : nat) (bs : list nat) : list nat :=
  match bs with
  | b :: r => match r with
              | [] => bs
              | _ => if b <? a then advance a r else bs
              end
  | [] => bs
  end.
(** l.73-82: one row of A and one nonempty column of B; [true] when nz is increased *)
Fixpoint meets (row bs : list nat) : bool :=
  match row with
  | [] => false
  | a :: row' => match advance a bs with
                 | b :: r => if b =? a then true else meets row' (b :: r)
                 | [] => false
                 end
  end.
(** stored indices of a row of a CSR matrix, or of a column of a CSC matrix *)
Definition row_indices (M : csr) (i : nat) : list nat := map fst (row_entries M i).
(** l.59-84: [size] is the number of rows of A; [B] holds the three arrays of the CSC matrix *)
Definition countnnz (A B : csr) : nat :=
  let size := length (c_ptr A) - 1 in
  fold_left (fun nz i =>
    match row_indices A i with
    | [] => nz
    | row => fold_left (fun nz j => match row_indices B j with
                                    | [] => nz
                                    | bs => if meets row bs then S nz else nz
                                    end) (seq 0 size) nz
    end) (seq 0 size) 0.
