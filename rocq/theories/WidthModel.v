(** Model of the widths of index arrays: /repo/src/flowstab/sparse_stoch_mat.py (class
    SparseStochMat) and compute_transition_matrices / compute_lin_transition_matrices in
    /repo/src/flowstab/temporal_network.py on compact matrices.

    The compiled kernels of _cython_sparse_stoch.pyx declare the width of their index arrays:
    [stoch_mat_add] (l.90-100) takes 32-bit indices ([int[:]]), [rebuild_nnz_rowcol] (l.350)
    and [inplace_csr_row_normalize] (l.438) 64-bit ones ([long long[:]]); an array of the other
    width raises ValueError ([None]).  The Python fallback _cython_subst.py takes both. *)
From Verif Require Import Base SparseModel.
Local Open Scope bool_scope.

Inductive width := W32 | W64.
Definition is32 (w : width) : bool := match w with W32 => true | W64 => false end.
(** does an [int[:]] parameter take the array? *)
Definition takes (compiled : bool) (w : width) : bool := negb compiled || is32 w.

(** a SparseStochMat with the width of [T_small.indices] and [T_small.indptr], which are always
    converted together; [nz_rowcols] has 32 bits, l.130 *)
Record wmat := mkW { w_mat : ssm; w_width : width }.
(** [__init__], l.129-138, converts to 32 bits; all constructors go through it *)
Definition built (o : option ssm) : option wmat := option_map (fun A => mkW A W32) o.

(** [__add__], l.325-358: the arrays are passed as they are *)
Definition w_add (compiled : bool) (A B : wmat) : option wmat :=
  if takes compiled (w_width A) && takes compiled (w_width B)
  then built (ssm_add (w_mat A) (w_mat B)) else None.
(** [__mul__], l.516-527 *)
Definition w_mul (A : wmat) (x : num) : option wmat := built (ssm_mul (w_mat A) x).
(** [sub_diag], l.281-289 *)
Definition w_sub_diag (sp : scipy) (A : wmat) (d : num) : option wmat := built (ssm_sub_diag sp (w_mat A) d).
(** [inplace_row_normalize], l.222-233: [T_small.indptr] and [T_small.indices] are replaced by
    arrays of 64 bits *)
Definition w_normalise (A : wmat) (row_sum : num) : wmat := mkW (ssm_row_normalise (w_mat A) row_sum) W64.
(** [set_to_zeroes], l.235-249, with [relative=True]: [eliminate_zeros] keeps the width *)
Definition w_zero (A : wmat) (tol : num) : wmat :=
  mkW (mkS (s_size (w_mat A)) (s_nz (w_mat A)) (set_to_zeroes (s_small (w_mat A)) tol true false) (s_diag (w_mat A))) (w_width A).
(** [tocsr], l.251-261, 593-612: the arrays are converted before the kernel is called *)
Definition w_tocsr (A : wmat) : option csr := to_full_mat (w_mat A).

(** [__matmul__], l.416-502: a factor with [diag_val] 1.0 is added as it is, any other is
    multiplied first, which builds a new matrix *)
Definition w_matmul (compiled : bool) (sp : scipy) (A B : wmat) : option wmat :=
  let a := s_diag (w_mat A) in
  let b := s_diag (w_mat B) in
  let cnz := unique (s_nz (w_mat A) ++ s_nz (w_mat B)) in
  let inter := filter (fun i => memb i (s_nz (w_mat B))) (s_nz (w_mat A)) in
  obind (if qeqb a 1%num then Some B else w_mul B a) (fun aB =>
  obind (if qeqb b 1%num then Some A else w_mul A b) (fun bA =>
  obind (w_add compiled bA aB) (fun sum =>
  obind (w_sub_diag sp sum (a * b)%num) (fun rest =>
  match inter with
  | [] => Some rest
  | _ =>
      obind (col_map (s_nz (w_mat A)) cnz 0) (fun amap =>
      obind (col_map (s_nz (w_mat B)) cnz 0) (fun bmap =>
      obind (built (ssm_init (length cnz) (add_eye sp (s_small (w_mat A)) (- a)%num) amap 0%num)) (fun AmI =>
      obind (built (ssm_init (length cnz) (add_eye sp (s_small (w_mat B)) (- b)%num) bmap 0%num)) (fun BmI =>
      obind (w_tocsr AmI) (fun FA =>
      obind (w_tocsr BmI) (fun FB =>
      obind (built (ssm_init (s_size (w_mat A)) (matmul sp FA FB) cnz 0%num)) (fun CmI =>
      w_add compiled CmI rest)))))))
  end)))).

(** ** compute_transition_matrices, l.1595-1651, without [force_csr] *)
(** l.1606-1607 and l.1631-1633: only with a tolerance *)
Definition w_clean (tol : option num) (A : wmat) : wmat :=
  match tol with Some t => w_normalise (w_zero A t) 1%num | None => A end.
Definition w_trim (tol : option num) (A : wmat) : wmat :=
  match tol with Some t => w_zero A t | None => A end.
(** l.1625-1651: every product is normalised *)
Fixpoint w_products (compiled : bool) (sp : scipy) (tol : option num) (T : wmat) (l : list wmat) : option (list wmat) :=
  match l with
  | [] => Some []
  | A :: r =>
      obind (w_matmul compiled sp T (w_clean tol A)) (fun P =>
      let T1 := w_normalise (w_trim tol P) 1%num in
      option_map (cons T1) (w_products compiled sp tol T1 r))
  end.
(** what [save_intermediate] keeps; the factors are listed in the order of the products.
    compute_lin_transition_matrices, l.1696-1731, does the same on [inter_T_lin] with no
    tolerance. *)
Definition w_transitions (compiled : bool) (sp : scipy) (tol : option num) (l : list wmat) : option (list wmat) :=
  match l with
  | [] => None
  | A :: r => option_map (cons (w_clean tol A)) (w_products compiled sp tol (w_clean tol A) r)
  end.

(** ** The same with [force_csr]: the first factor is converted (l.1601, l.1610), and then
    [csr @ SparseStochMat] falls back on [__rmatmul__], l.504-514 *)
Definition c_normalise (n : nat) (M : csr) : csr := csr_row_normalise M n (fun _ => 1%num).
Definition c_trim (tol : option num) (M : csr) : csr :=
  match tol with Some t => set_to_zeroes M t true false | None => M end.
Definition c_clean (n : nat) (tol : option num) (M : csr) : csr :=
  match tol with Some t => c_normalise n (set_to_zeroes M t true false) | None => M end.
Fixpoint c_products (n : nat) (sp : scipy) (tol : option num) (T : csr) (l : list wmat) : option (list csr) :=
  match l with
  | [] => Some []
  | A :: r =>
      obind (w_tocsr (w_clean tol A)) (fun F =>
      let T1 := c_normalise n (c_trim tol (matmul sp T F)) in
      option_map (cons T1) (c_products n sp tol T1 r))
  end.
Definition c_transitions (n : nat) (sp : scipy) (tol : option num) (l : list wmat) : option (list csr) :=
  match l with
  | [] => None
  | A :: r => obind (w_tocsr A) (fun F => option_map (cons (c_clean n tol F)) (c_products n sp tol (c_clean n tol F) r))
  end.
