(** Model of --init_p1 in the script /repo/src/flowstab/scripts/run_clusterings.py: integrals
    saved together with the density of the random walk at the start, [load_autocov_int],
    l.306-381 and l.412-456, and the runs of [worker] on them.

    Simplifications: those of ClustModel; the file is given by the entries of the matrix under
    "ITPT" or "ITPTback", the vector under "p1" or "p2", the integration time, and whether the
    matrix is in CSR or CSC format. No code of the repository writes such files. *)
From Verif Require Import Base PartitionModel LouvainModel SparseModel AutocovModel SparseLouvainModel EventsModel TransModel MultiModel ClustModel.
Local Open Scope bool_scope.

(** ** Loading *)
(** [set_to_zeroes(ITPT, integral_rtol)], l.332: a TypeError for other formats *)
Definition round_file (n : nat) (compressed : bool) (rtol : option num) (M : mat) : option mat :=
  match rtol with
  | None => Some M
  | Some r => if compressed then Some (value (set_to_zeroes (csr_of n M) r true false)) else None
  end.
(** [ITPT.data *= (1/int_time)] and [ITPT + ITPT.T - diags(ITPT.diagonal())], l.334 and l.343 *)
Definition full_init (M : mat) (t : num) : mat := fun i j =>
  (M i j * (1 / t) + M j i * (1 / t) - (if i =? j then M i j * (1 / t) else 0))%num.
(** [zero_rows], l.352 *)
Definition zero_rows (n : nat) (p : list num) (M : mat) : list nat :=
  filter (fun i => qltb 0%num (nth i p 0%num) && qeqb (sumN n (M i)) 0%num) (seq 0 n).
(** [ITPT[i,i] = integral_rtol*ITPT.data.max()], l.356: a TypeError without --integral_rtol, a
    ValueError when there are no entries *)
Definition fill_row (n : nat) (rtol : option num) (M : mat) (i : nat) : option mat :=
  match rtol, c_data (csr_of n M) with
  | Some r, (_ :: _) as l => Some (fun a b => if (a =? i) && (b =? i) then (r * list_max l)%num else M a b)
  | _, _ => None
  end.
Fixpoint fill_rows (n : nat) (rtol : option num) (M : mat) (l : list nat) : option mat :=
  match l with
  | [] => Some M
  | i :: l => match fill_row n rtol M i with Some N => fill_rows n rtol N l | None => None end
  end.
(** [inplace_csr_row_normalize(ITPT, p)], l.360, _cython_sparse_stoch.pyx l.482-517: a row with
    target 0 loses its mean over the stored entries *)
Definition row_normalise_vec (n : nat) (p : list num) (M : mat) : mat := fun i j =>
  let s := sumN n (M i) in
  if qeqb s 0%num then M i j
  else if qeqb (nth i p 0%num) 0%num
       then (if qeqb (M i j) 0%num then M i j else (M i j - s / qn (length (row_entries (csr_of n M) i)))%num)
       else (M i j / (s / nth i p 0))%num.
(** one iteration, l.360-361 *)
Definition init_step (n : nat) (p : list num) (M : mat) : mat :=
  let N := row_normalise_vec n p M in fun i j => ((N i j + N j i) / 2)%num.
Fixpoint init_iter (n k : nat) (p : list num) (M : mat) : mat := match k with 0 => M | S k => init_iter n k p (init_step n p M) end.
(** l.306-381; [norm]: [num_norm_iter], [None] with --not_normalize_cov_mat *)
Definition load_init (n : nat) (compressed : bool) (rtol : option num) (norm : option nat) (M : mat) (t : num) (p : list num) : option autocov :=
  match round_file n compressed rtol M with
  | None => None
  | Some R =>
      let F := full_init R t in
      match norm with
      | None => ac_init (csr_of n F) (PVec p p) true
      | Some k => match fill_rows n rtol F (zero_rows n p F) with
                  | Some G => ac_init (csr_of n (init_iter n k p G)) (PVec p p) true
                  | None => None
                  end
      end
  end.

(** ** Components *)
(** --separate_comps, l.412-456: nodes alone in their component are left out when they are in
    [pzero_nodes] *)
Definition load_separate_init (label : list nat) (A : autocov) : option (list (autocov * list nat) * list nat) :=
  match load_separate label A with
  | Some (comps, alone) => Some (comps, filter (fun x => qltb 0%num (nth x (fst (vectors_of A)) 0%num)) alone)
  | None => None
  end.
(** the runs of [worker], l.745-818 *)
Definition all_runs_init (setord : list nat -> list nat) (rng : nat -> nat -> nat -> nat -> list nat) (n_meta n_sub : nat)
    (o : comps_option) (pool : bool) (label : list nat) (A : autocov) (seeds : list nat) : option (list (list (list nat)) * list num * list nat) :=
  match o with
  | SeparateComps =>
      match load_separate_init label A with
      | None => None
      | Some (comps, singletons) =>
          match (if pool then shared_list comps else Some comps) with
          | None => None
          | Some comps => match all_some (map (run_separate setord rng n_meta n_sub comps singletons) seeds) with Some l => unzip3 l | None => None end
          end
      end
  | _ => all_runs setord rng n_meta n_sub o pool label A seeds
  end.
