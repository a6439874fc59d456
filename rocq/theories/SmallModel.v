(** Model of the functions of /repo/src/flowstab/temporal_network.py that work on the rows and
    columns that are used only (l.2364-2375, l.2427-2492, l.2569-2643), of
    [compute_parallel_expm] and [_stack_sparse_cols], /repo/src/flowstab/parallel_expm.py
    l.37-142, of [create_diag], [check_nz_intersect_len] and [sparse_outer],
    /repo/src/flowstab/sparse_stoch_mat.py l.207-221, l.314-322 and l.1101-1152, of
    /repo/src/flowstab/_cython_sparse_stoch_subst.py, and of [_find_optimal_flow] and
    [_compute_subsets_connectedness], /repo/src/flowstab/network_clustering.py l.501-524 and
    l.686-703.

    Simplifications: as in SparseModel.v and TransModel.v; MKL is not used; an exception is
    [None]. *)
From Verif Require Import Base LouvainModel SparseModel TransModel.
Local Open Scope bool_scope.

(** ** Diagonal matrices *)
(** [create_diag], sparse_stoch_mat.py l.207-221 *)
Definition create_diag (size : nat) (diag : num) : option ssm := ssm_init size (mkCsr [] [] [0]) [] diag.
(** [check_nz_intersect_len], l.314-322 *)
Definition nz_intersect_len (A B : ssm) : nat := length (filter (fun i => memb i (s_nz B)) (s_nz A)).

(** ** Stationary matrices and linear approximations of the used rows and columns *)
(** [comps m A] stands for [connected_components] of an m x m matrix *)
Definition components := nat -> mat -> nat * (nat -> nat).
Definition stationary_of (comps : components) (m : nat) (T : csr) : csr := stationary_transition m (snd (comps m (value T))) T.
(** [sparse_stationary_trans], l.2619-2636 *)
Definition sparse_stationary (comps : components) (T : csr) : option ssm :=
  obind (from_full T None 1%num) (fun A =>
    ssm_init (s_size A) (stationary_of comps (length (s_nz A)) (s_small A)) (s_nz A) 1%num).

(** sum of two csr matrices of [m] rows; ValueError when the sizes differ *)
Definition csr_plus (m : nat) (A B : csr) : option csr :=
  if (length (c_ptr A) =? S m) && (length (c_ptr B) =? S m) then Some (csr_of_dense m (mplus (value A) (value B))) else None.
Definition csr_scale (c : num) (A : csr) : csr := mkCsr (map (fun v => (c * v)%num) (c_data A)) (c_idx A) (c_ptr A).
Definition csr_eye (m : nat) : csr := mkCsr (repeat 1%num m) (seq 0 m) (seq 0 (S m)).
(** [lin_approx_trans_matrix] with [Pi] given, l.2199-2218 *)
Definition lin_approx_csr (m : nat) (T : csr) (t : num) (Pi : csr) (t_s : num) : option csr :=
  if qltb t 0%num then None
  else if qleb t 1%num then csr_plus m (csr_scale (1 - t)%num (csr_eye m)) (csr_scale t T)
  else if qltb t t_s then option_map (csr_scale (1 / (1 - t_s))%num) (csr_plus m (csr_scale (t - t_s)%num T) (csr_scale (1 - t)%num Pi))
  else Some Pi.
(** the argument [Pi]: None, a SparseStochMat, or a csr matrix *)
Inductive pi_arg := PiNone | PiSparse (P : ssm) | PiCsr (P : csr).
(** [sparse_lin_approx], l.2569-2616 *)
Definition sparse_lin_approx (comps : components) (T : csr) (t : num) (Pi : pi_arg) (t_s : num) (nz : option (list nat)) : option ssm :=
  obind (from_full T nz 1%num) (fun A =>
  let m := length (s_nz A) in
  obind (match Pi with
         | PiNone => Some (stationary_of comps m (s_small A))
         | PiSparse P => Some (s_small P)
         | PiCsr P => option_map s_small (from_full P nz 1%num)
         end) (fun Ps =>
  obind (lin_approx_csr m (s_small A) t Ps t_s) (fun M => ssm_init (s_size A) M (s_nz A) 1%num))).
(** one step of [compute_lin_inter_transition_matrices] with [use_sparse_stoch], l.1525-1542,
    with the stationary matrix of l.1764-1766; sums and differences of scipy matrices store no
    zeros, so that [getnnz] counts the non-zero entries of [L] *)
Definition lin_step_sparse (comps : components) (n : nat) (L : mat) (t t_s : num) : option ssm :=
  let T := csr_of_dense n (mminus ident L) in
  obind (sparse_stationary comps T) (fun P => sparse_lin_approx comps T t (PiSparse P) t_s (Some (used_rowcols n L))).

(** ** csc_row_normalize, l.2364-2375; [M] is the matrix after [tocsr] *)
Definition csc_normalise_row (ptr : list nat) (data : list num) (i : nat) : list num :=
  let range := row_range ptr i in
  let s := sumL (fun j => nth j data 0%num) range in
  if qeqb s 0%num then data else set_range data (fun v => (v / s)%num) range.
Definition csc_row_normalise (M : csr) : csr :=
  mkCsr (fold_left (csc_normalise_row (c_ptr M)) (seq 0 (length (c_ptr M) - 1)) (c_data M)) (c_idx M) (c_ptr M).

(** ** set_to_ones, l.2639-2643 *)
Definition set_to_ones (M : csr) (tol : num) : csr :=
  mkCsr (map (fun v => if qleb (qabs (v - 1)%num) tol then 1%num else v) (c_data M)) (c_idx M) (c_ptr M).

(** ** numpy_rebuild_nnz_rowcol, l.2427-2492
    [new_col_inds] has as many places as the small matrix has rows (IndexError). *)
Fixpoint numpy_rows (M : csr) (zero cols : list nat) (row_id left small : nat) : list (list (nat * num)) :=
  match left with
  | 0 => []
  | S left' =>
      if memb row_id zero
      then [(row_id, 1%num)] :: numpy_rows M zero cols (S row_id) left' small
      else map (fun e => (nth (fst e) cols 0, snd e)) (row_entries M small) :: numpy_rows M zero cols (S row_id) left' (S small)
  end.
Definition numpy_rebuild (M : csr) (zero : list nat) : option (csr * nat) :=
  let m := length (c_ptr M) - 1 in
  let n_rows := m + length zero in
  let cols := filter (fun i => negb (memb i zero)) (seq 0 n_rows) in
  if length cols <=? m then Some (of_rows (numpy_rows M zero cols 0 n_rows 0), n_rows) else None.

(** ** sparse_outer, sparse_stoch_mat.py l.1101-1152
    [p] lists the stored entries of the (1,n) matrix. *)
Fixpoint entry_insert (e : nat * num) (l : list (nat * num)) : list (nat * num) :=
  match l with [] => [e] | f :: r => if fst e <=? fst f then e :: l else f :: entry_insert e r end.
(** [eliminate_zeros] and [sort_indices] *)
Definition cleaned_row (p : list (nat * num)) : list (nat * num) :=
  fold_right entry_insert [] (filter (fun e => negb (qeqb (snd e) 0%num)) p).
(** entries of [np.outer(d,d)], those on and above the diagonal or all of them, row by row *)
Fixpoint outer_triu (d : list num) : list num :=
  match d with [] => [] | x :: r => map (fun y => (x * y)%num) d ++ outer_triu r end.
Definition outer_all (d : list num) : list num := flat_map (fun x => map (fun y => (x * y)%num) d) d.
Fixpoint cumsum (s : nat) (l : list nat) : list nat := match l with [] => [s] | x :: r => s :: cumsum (s + x) r end.
(** [num_per_row] of l.1140 with the iterator [row_len]; [None]: StopIteration *)
Fixpoint take_next (idx : list nat) (lens : list nat) (rows : list nat) : option (list nat) :=
  match rows with
  | [] => Some []
  | r :: rest =>
      if memb r idx then match lens with [] => None | x :: lens' => option_map (cons x) (take_next idx lens' rest) end
      else option_map (cons 0) (take_next idx lens rest)
  end.
(** what [csr_matrix((data, indices, indptr))] checks; entries after [indptr[-1]] are dropped *)
Definition checked_csr (data : list num) (idx ptr : list nat) : option csr :=
  if (length data =? length idx) && (last ptr 0 <=? length idx)
  then Some (mkCsr (firstn (last ptr 0) data) (firstn (last ptr 0) idx) ptr) else None.
Definition sparse_outer (n : nat) (p : list (nat * num)) (triu : bool) : option csr :=
  let q := cleaned_row p in
  let idx := map fst q in
  let d := map snd q in
  let lists := if triu then map (fun r => filter (fun c => r <=? c) idx) idx else map (fun _ => idx) idx in
  match (if triu then take_next idx (map (@length nat) lists) (seq 0 n)
         else Some (map (fun r => if memb r idx then length idx else 0) (seq 0 n))) with
  | None => None
  | Some per_row =>
      (* np.concatenate of no arrays raises; squeeze of a single element is not a vector *)
      if (length idx =? 0) || (negb triu && (length d =? 1)) then None
      else checked_csr (if triu then outer_triu d else outer_all d) (concat lists) (cumsum 0 per_row)
  end.

(** ** compute_parallel_expm, parallel_expm.py l.37-122
    [G m A v] is [expm_multiply(A, v)]. *)
Section Parallel.
Context (G : nat -> mat -> (nat -> num) -> nat -> num).
(** [_worker], l.45-61: a column, trimmed by its own maximum *)
Definition column_max (m : nat) (c : nat -> num) : num := list_max (map c (seq 0 m)).
Definition worker_column (m : nat) (A : mat) (thresh_ratio : option num) (i : nat) : nat -> num :=
  let c := G m A (fun k => if k =? i then 1%num else 0%num) in
  match thresh_ratio with
  | None => c
  | Some r => fun k => if qltb (c k) (column_max m c / r)%num then 0%num else c k
  end.
(** [vstack(res).T.tocsr()], l.114, and the normalisation; [csc_matrix(Tcol_i)] stores the
    non-zero entries *)
Definition compute_parallel_expm (m : nat) (A : mat) (thresh_ratio : option num) (normalize_rows : bool) : csr :=
  let res := map (worker_column m A thresh_ratio) (seq 0 m) in
  let T := csr_of_dense m (fun a b => nth b res (fun _ => 0%num) a) in
  if normalize_rows then csr_row_normalise T m (fun _ => 1%num) else T.
End Parallel.
(** [_stack_sparse_cols], l.124-142: the arrays of a csc matrix; a column is the list of its
    stored entries *)
Definition stack_cols (N : nat) (cols : list (list (nat * num))) : option csr :=
  if length cols <=? N then
    Some (mkCsr (concat (map (map snd) cols)) (concat (map (map fst) cols))
                (cumsum 0 (map (@length _) cols) ++ repeat 0 (N - length cols)))
  else None.

(** ** _cython_sparse_stoch_subst.py *)
(** [inplace_csr_row_normalize], l.32-40: assigns instead of dividing; a division by zero gives
    an infinity *)
Definition other_normalise_row (ptr : list nat) (row_sum : num) (od : option (list num)) (i : nat) : option (list num) :=
  match od with
  | None => None
  | Some data =>
      let range := row_range ptr i in
      let s := sumL (fun j => nth j data 0%num) range in
      if qeqb s 0%num then Some data
      else if qeqb row_sum 0%num then None
      else Some (set_range data (fun _ => (s / row_sum)%num) range)
  end.
Definition other_row_normalise (M : csr) (n_row : nat) (row_sum : num) : option csr :=
  match fold_left (other_normalise_row (c_ptr M) row_sum) (seq 0 n_row) (Some (c_data M)) with
  | Some d => Some (mkCsr d (c_idx M) (c_ptr M))
  | None => None
  end.

(** ** Clusterings *)
(** [_find_optimal_flow], network_clustering.py l.501-524; [lsa] is [linear_sum_assignment] of
    an ns x nt matrix *)
Definition find_optimal_flow (lsa : nat -> nat -> mat -> list nat * list nat) (ns nt : nat) (R : mat)
  : num * list (nat * nat) * list (nat * nat) :=
  let '(rows, cols) := lsa ns nt (fun i j => (1 - R i j)%num) in
  let pairs := combine rows cols in
  (sumL (fun st => R (fst st) (snd st)) pairs,
   fold_left (fun d st => aset Nat.eqb d (fst st) (snd st)) pairs [],
   fold_left (fun d st => aset Nat.eqb d (snd st) (fst st)) pairs []).
(** [_compute_subsets_connectedness], l.686-703: the index [[[i] for i in s1]] is a column, but
    the empty list is not and must broadcast with [s2] (IndexError) *)
Definition subsets_connectedness (S : mat) (s1 s2 : list nat) : option num :=
  match s1 with
  | [] => if length s2 =? 1 then Some 0%num else if length s2 =? 0 then Some 0%num else None
  | _ => Some (sumL (fun i => sumL (S i) s2) s1)
  end.
