(** Model of /repo/src/flowstab/sparse_stoch_mat.py (class SparseStochMat l.79-534 and the
    functions l.537-672) and of the kernels it calls in
    /repo/src/flowstab/_cython_sparse_stoch.pyx and sparse_accumulator.cpp.  The fallback
    /repo/src/flowstab/_cython_subst.py is modelled where it differs.

    Arrays are lists; the Cython kernels run without bounds checks, so a write outside the
    allocated buffer is modelled by the result [None] ("undefined"). *)
From Verif Require Import Base.
Local Open Scope bool_scope.

(** ** CSR arrays: data, indices, indptr *)
Record csr := mkCsr { c_data : list num; c_idx : list nat; c_ptr : list nat }.

(** the positions [range(indptr[i], indptr[i+1])] of row [i] *)
Definition row_range (ptr : list nat) (i : nat) : list nat :=
  seq (nth i ptr 0) (nth (S i) ptr 0 - nth i ptr 0).
(** column and value of each stored element of row [i], in storage order *)
Definition row_entries (M : csr) (i : nat) : list (nat * num) :=
  map (fun k => (nth k (c_idx M) 0, nth k (c_data M) 0%num)) (row_range (c_ptr M) i).
(** arrays filled row after row by the kernels ([kc], [data_ind], [its] run over the
    output positions; indptr accumulates the row lengths); the unused end of the buffer is
    dropped when scipy prunes the arrays *)
Fixpoint ptrs (start : nat) (rows : list (list (nat * num))) : list nat :=
  match rows with
  | [] => [start]
  | r :: t => start :: ptrs (start + length r) t
  end.
Definition of_rows (rows : list (list (nat * num))) : csr :=
  mkCsr (map snd (concat rows)) (map fst (concat rows)) (ptrs 0 rows).

(** ** Sparse accumulator, sparse_accumulator.cpp l.27-61, _cython_subst.py l.47-80 *)
Record spa := mkSpa { sp_w : list num; sp_b : list Z; sp_row : Z; sp_LS : list nat }.
Definition spa_new (size : nat) : spa :=
  mkSpa (repeat 0%num size) (repeat (-1)%Z size) 0%Z [].
Definition scatter (s : spa) (value : num) (pos : nat) : spa :=
  if (nth pos (sp_b s) 0%Z <? sp_row s)%Z
  then mkSpa (upd (sp_w s) pos value) (upd (sp_b s) pos (sp_row s)) (sp_row s) (sp_LS s ++ [pos])
  else mkSpa (upd (sp_w s) pos (nth pos (sp_w s) 0 + value)%num) (sp_b s) (sp_row s) (sp_LS s).
Definition spa_reset (s : spa) (row : nat) : spa :=
  mkSpa (sp_w s) (sp_b s) (Z.of_nat row) [].
Definition scatter_all (s : spa) (l : list (nat * num)) : spa :=
  fold_left (fun s e => scatter s (snd e) (fst e)) l s.
(** what the kernels read back: the listed positions with their values *)
Definition read_out (s : spa) : list (nat * num) :=
  map (fun p => (p, nth p (sp_w s) 0%num)) (sp_LS s).

(** ** Index sets *)
(** np.unique, and sorted(list(set)) *)
Fixpoint ins (x : nat) (l : list nat) : list nat :=
  match l with
  | [] => [x]
  | y :: r => if x <? y then x :: l else if x =? y then l else y :: ins x r
  end.
Definition unique (l : list nat) : list nat := fold_right ins [] l.
(** Acol_to_Ccol, _cython_sparse_stoch.pyx l.151-161: [while Anz[k] != Cnz[ic_col]:
    ic_col += 1]; [cnz] is what is left of Cnz_rowcols from [ic] on.  [None]: IndexError. *)
Fixpoint advance (a : nat) (cnz : list nat) (ic : nat) : option (nat * list nat) :=
  match cnz with
  | [] => None
  | c :: r => if a =? c then Some (ic, cnz) else advance a r (S ic)
  end.
Fixpoint col_map (anz cnz : list nat) (ic : nat) : option (list nat) :=
  match anz with
  | [] => Some []
  | a :: r => match advance a cnz ic with
              | None => None
              | Some (ic', cnz') =>
                  match col_map r cnz' ic' with Some l => Some (ic' :: l) | None => None end
              end
  end.

(** ** SparseStochMat *)
Record ssm := mkS { s_size : nat; s_nz : list nat; s_small : csr; s_diag : num }.

(** [__init__], l.129-138: scipy checks the length of indptr; nz_rowcols is sorted *)
Definition ssm_init (size : nat) (M : csr) (nz : list nat) (diag : num) : option ssm :=
  if length (c_ptr M) =? S (length nz) then Some (mkS size (unique nz) M diag) else None.

(** [stoch_mat_add] l.90-211 ([sg] = 1) and [stoch_mat_sub] l.216-323 ([sg] = -1), which
    differ only by the factor -1 on the values of B.  State of the row loop: the row
    indices ia, ib, ic and the accumulator.  [has_canonical_format]/[sort_indices] only
    reorder the stored elements of a row and are not modelled: the theorems hold for
    every order. *)
Fixpoint op_rows (sg : num) (A B : ssm) (amap bmap : list nat) (cnz : list nat)
         (ia ib ic : nat) (s : spa) : list (list (nat * num)) :=
  match cnz with
  | [] => []
  | i :: r =>
      let s0 := spa_reset s i in
      let s1 := if memb i (s_nz A)
                then scatter_all s0 (map (fun e => (nth (fst e) amap 0, snd e)) (row_entries (s_small A) ia))
                else s0 in
      let ia' := if memb i (s_nz A) then S ia else ia in
      let s2 := if memb i (s_nz B)
                then scatter_all s1 (map (fun e => (nth (fst e) bmap 0, (sg * snd e)%num)) (row_entries (s_small B) ib))
                else s1 in
      let ib' := if memb i (s_nz B) then S ib else ib in
      let s3 := if memb i (s_nz A) && negb (memb i (s_nz B)) then scatter s2 (sg * s_diag B)%num ic else s2 in
      let s4 := if memb i (s_nz B) && negb (memb i (s_nz A)) then scatter s3 (s_diag A) ic else s3 in
      read_out s4 :: op_rows sg A B amap bmap r ia' ib' (S ic) s4
  end.
Definition total (rows : list (list (nat * num))) : nat := length (concat rows).
Definition stoch_mat_op (sg : num) (A B : ssm) : option ssm :=
  let cnz := unique (s_nz A ++ s_nz B) in
  match col_map (s_nz A) cnz 0, col_map (s_nz B) cnz 0 with
  | Some amap, Some bmap =>
      let rows := op_rows sg A B amap bmap cnz 0 0 0 (spa_new (length cnz)) in
      if total rows <=? length (c_data (s_small A)) + length (c_data (s_small B))
                        + length (c_ptr (s_small A)) + length (c_ptr (s_small B))
      then ssm_init (s_size A) (of_rows rows) cnz (s_diag A + sg * s_diag B)%num
      else None
  | _, _ => None
  end.
Definition ssm_add : ssm -> ssm -> option ssm := stoch_mat_op 1%num.
Definition ssm_sub : ssm -> ssm -> option ssm := stoch_mat_op (- (1))%num.

(** [rebuild_nnz_rowcol], _cython_sparse_stoch.pyx l.350-432: rows of the full matrix;
    [small] is row_id_small_t + 1 before the row is treated *)
Fixpoint rebuild_rows (M : csr) (nz : list nat) (diag : num) (row_id left small : nat)
  : list (list (nat * num)) :=
  match left with
  | 0 => []
  | S left' =>
      if memb row_id nz
      then map (fun e => (nth (fst e) nz 0, snd e)) (row_entries M small)
             :: rebuild_rows M nz diag (S row_id) left' (S small)
      else (if qeqb diag 0%num then [] else [(row_id, diag)])
             :: rebuild_rows M nz diag (S row_id) left' small
  end.
(** with the size of the output buffer, l.384-388 *)
Definition rebuild (M : csr) (nz : list nat) (size : nat) (diag : num) : option csr :=
  let rows := rebuild_rows M nz diag 0 size 0 in
  let buffer := if qeqb diag 0%num then length (c_data M)
                else length (c_data M) + size - length nz in
  if total rows <=? buffer then Some (of_rows rows) else None.
Definition to_full_mat (A : ssm) : option csr :=
  rebuild (s_small A) (s_nz A) (s_size A) (s_diag A).

(** [__mul__], l.516-527 *)
Definition ssm_mul (A : ssm) (x : num) : option ssm :=
  ssm_init (s_size A)
    (mkCsr (map (fun v => (v * x)%num) (c_data (s_small A))) (c_idx (s_small A)) (c_ptr (s_small A)))
    (s_nz A) (s_diag A * x)%num.

(** scipy operations used on small matrices, left abstract: adding a multiple of the
    identity, transposition, product; see [scipy_ok] in SparseSpec.v *)
Record scipy := mkScipy {
  add_eye : csr -> num -> csr;      (* M + d * eye(n, format="csr") *)
  transp : csr -> csr;              (* M.transpose().tocsr() *)
  matmul : csr -> csr -> csr        (* A @ B *)
}.
(** [sub_diag] l.281, [add_diag] l.290, [transpose] l.300 *)
Definition ssm_add_diag (sp : scipy) (A : ssm) (d : num) : option ssm :=
  ssm_init (s_size A) (add_eye sp (s_small A) d) (s_nz A) (s_diag A + d)%num.
Definition ssm_sub_diag (sp : scipy) (A : ssm) (d : num) : option ssm :=
  ssm_init (s_size A) (add_eye sp (s_small A) (- d)%num) (s_nz A) (s_diag A - d)%num.
Definition ssm_transpose (sp : scipy) (A : ssm) : option ssm :=
  ssm_init (s_size A) (transp sp (s_small A)) (s_nz A) (s_diag A).

Definition obind {A B} (x : option A) (f : A -> option B) : option B :=
  match x with Some a => f a | None => None end.

(** [__matmul__] between two SparseStochMat, l.416-494 *)
Definition ssm_matmul (sp : scipy) (A B : ssm) : option ssm :=
  let cnz := unique (s_nz A ++ s_nz B) in
  let inter := filter (fun i => memb i (s_nz B)) (s_nz A) in
  obind (if qeqb (s_diag A) 1%num then Some B else ssm_mul B (s_diag A)) (fun aB =>
  obind (if qeqb (s_diag B) 1%num then Some A else ssm_mul A (s_diag B)) (fun bA =>
  obind (ssm_add bA aB) (fun sum =>
  obind (ssm_sub_diag sp sum (s_diag A * s_diag B)%num) (fun rest =>
  match inter with
  | [] => Some rest
  | _ =>
      obind (col_map (s_nz A) cnz 0) (fun amap =>
      obind (col_map (s_nz B) cnz 0) (fun bmap =>
      obind (ssm_init (length cnz) (add_eye sp (s_small A) (- s_diag A)%num) amap 0%num) (fun AmI =>
      obind (ssm_init (length cnz) (add_eye sp (s_small B) (- s_diag B)%num) bmap 0%num) (fun BmI =>
      obind (to_full_mat AmI) (fun FA =>
      obind (to_full_mat BmI) (fun FB =>
      obind (ssm_init (s_size A) (matmul sp FA FB) cnz 0%num) (fun CmI =>
      ssm_add CmI rest)))))))
  end)))).

(** ** From a full matrix *)
(** BtoS, pyx l.613-615: an unordered_map; reading a missing key yields 0 *)
Fixpoint btos_from (k : nat) (nz : list nat) (j : nat) (acc : nat) : nat :=
  match nz with
  | [] => acc
  | x :: r => btos_from (S k) r j (if x =? j then k else acc)
  end.
Definition btos (nz : list nat) (j : nat) : nat := btos_from 0 nz j 0.
(** [sparse_stoch_from_full_csr], pyx l.596-634, including the size of its buffer *)
Definition from_full_kernel (nz : list nat) (T : csr) (diag : num) : option ssm :=
  let rows := map (fun tb => map (fun e => (btos nz (fst e), snd e)) (row_entries T tb)) nz in
  if (Z.of_nat (total rows) <=?
      Z.of_nat (length (c_data T)) - Z.of_nat (length (c_ptr T)) + 1 + Z.of_nat (length nz))%Z
  then ssm_init (length (c_ptr T) - 1) (of_rows rows) nz diag
  else None.
(** the fallback, _cython_subst.py l.9-36: BtoS is a dict, reading a missing key raises
    KeyError, and writing outside the buffer raises IndexError (both [None]) *)
Definition subst_from_full_kernel (nz : list nat) (T : csr) (diag : num) : option ssm :=
  if forallb (fun tb => forallb (fun e => memb (fst e) nz) (row_entries T tb)) nz
  then from_full_kernel nz T diag else None.
(** value at (i, j): stored elements of a CSR matrix with the same position add up *)
Definition value (M : csr) (i j : nat) : num :=
  sumL (fun e => if fst e =? j then snd e else 0%num) (row_entries M i).
(** rows and columns with a non-zero in T - diag * eye, l.192-194; [nonzero] looks at the
    values *)
Definition nz_rowcols_of (n : nat) (T : csr) (diag : num) : list nat :=
  filter (fun i => existsb (fun j =>
     negb (qeqb (value T i j) (if i =? j then diag else 0%num))
     || negb (qeqb (value T j i) (if i =? j then diag else 0%num))) (seq 0 n)) (seq 0 n).
(** [from_full_csr_matrix], l.185-204 *)
Definition from_full (T : csr) (nz : option (list nat)) (diag : num) : option ssm :=
  let n := length (c_ptr T) - 1 in
  from_full_kernel (match nz with Some l => l | None => nz_rowcols_of n T diag end) T diag.

(** ** Row normalisation *)
(** [inplace_csr_row_normalize_array], pyx l.482-521; with a constant [row_sum] this is
    [inplace_csr_row_normalize], l.438-477 *)
Definition set_range (data : list num) (f : num -> num) (range : list nat) : list num :=
  fold_left (fun d j => upd d j (f (nth j d 0%num))) range data.
Definition normalise_row (ptr : list nat) (row_sum : nat -> num) (data : list num) (i : nat) : list num :=
  let range := row_range ptr i in
  let s := sumL (fun j => nth j data 0%num) range in
  if qeqb s 0%num then data
  else if qeqb (row_sum i) 0%num
       then set_range data (fun v => (v - s / qn (nth (S i) ptr 0 - nth i ptr 0)%nat)%num) range
       else set_range data (fun v => (v / (s / row_sum i))%num) range.
Definition csr_row_normalise (M : csr) (n_row : nat) (row_sum : nat -> num) : csr :=
  mkCsr (fold_left (normalise_row (c_ptr M) row_sum) (seq 0 n_row) (c_data M)) (c_idx M) (c_ptr M).
(** [SparseStochMat.inplace_row_normalize], l.222-233 *)
Definition ssm_row_normalise (A : ssm) (row_sum : num) : ssm :=
  mkS (s_size A) (s_nz A) (csr_row_normalise (s_small A) (length (c_ptr (s_small A)) - 1) (fun _ => row_sum)) row_sum.
(** the fallback kernel, _cython_subst.py l.39-46, has no case for row_sum = 0: with
    row_sum = 0 the divisor is infinite (numpy floats) and the row becomes 0 *)
Definition subst_normalise_row (ptr : list nat) (row_sum : num) (data : list num) (i : nat) : list num :=
  let range := row_range ptr i in
  let s := sumL (fun j => nth j data 0%num) range in
  if qeqb s 0%num then data
  else if qeqb row_sum 0%num then set_range data (fun _ => 0%num) range
  else set_range data (fun v => (v / (s / row_sum))%num) range.
Definition subst_row_normalise (M : csr) (n_row : nat) (row_sum : num) : csr :=
  mkCsr (fold_left (subst_normalise_row (c_ptr M) row_sum) (seq 0 n_row) (c_data M)) (c_idx M) (c_ptr M).

(** ** set_to_zeroes, sparse_stoch_mat.py l.235-249 and temporal_network.py l.2646-2668 *)
Definition list_max (l : list num) : num := match l with [] => 0%num | a :: r => fold_left qmax r a end.
Definition qmin (x y : num) : num := if qleb x y then x else y.
Definition list_min (l : list num) : num := match l with [] => 0%num | a :: r => fold_left qmin r a end.
(** scipy's eliminate_zeros *)
Definition eliminate_zeros (M : csr) : csr :=
  of_rows (map (fun i => filter (fun e => negb (qeqb (snd e) 0%num)) (row_entries M i)) (seq 0 (length (c_ptr M) - 1))).
Definition set_to_zeroes (M : csr) (tol : num) (relative use_abs : bool) : csr :=
  match c_data M with
  | [] => M
  | _ =>
      let tol' := if relative
                  then (tol * qmax (qabs (list_min (c_data M))) (qabs (list_max (c_data M))))%num
                  else tol in
      let small v := if use_abs then qleb (qabs v) tol' else qleb v tol' in
      eliminate_zeros (mkCsr (map (fun v => if small v then 0%num else v) (c_data M)) (c_idx M) (c_ptr M))
  end.
