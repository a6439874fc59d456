(** Model of the class SparseAutocovMat, /repo/src/flowstab/sparse_stoch_mat.py l.675-1098,
    of the kernels it calls in _cython_sparse_stoch.pyx l.635-930, and of the two scaling
    functions l.613-672.

    The matrix is S = PT - outer(p1, p2) with PT in CSR format.  Arrays are lists.  The
    kernels run without bounds checks: a read outside an array gives [None]. *)
From Verif Require Import Base SparseModel.
Local Open Scope bool_scope.

(** p1 and p2 are two scalars ([p_scalars], only the product p1p2 is used) or two vectors *)
Inductive probs := PScal (p1 p2 : num) | PVec (p1 p2 : list num).

Record autocov := mkA { a_PT : csr; a_PTcsc : csr; a_p : probs; a_sym : bool }.

(** number of rows *)
Definition csr_size (M : csr) : nat := length (c_ptr M) - 1.
Definition a_size (A : autocov) : nat := csr_size (a_PT A).
Definition csr_rows (M : csr) : list (list (nat * num)) :=
  map (row_entries M) (seq 0 (csr_size M)).

(** [PT.sort_indices()], l.716: the elements of each row by increasing column *)
Fixpoint insert_entry (e : nat * num) (l : list (nat * num)) : list (nat * num) :=
  match l with
  | [] => [e]
  | f :: r => if fst e <=? fst f then e :: l else f :: insert_entry e r
  end.
Definition sort_entries (l : list (nat * num)) : list (nat * num) := fold_right insert_entry [] l.
Definition sort_indices (M : csr) : csr := of_rows (map sort_entries (csr_rows M)).

(** [PT.tocsc()], l.720: the CSC arrays of PT are the CSR arrays of its transpose; column j
    lists the rows in increasing order *)
Definition csc_column (M : csr) (j : nat) : list (nat * num) :=
  flat_map (fun i => map (fun e => (i, snd e)) (filter (fun e => fst e =? j) (row_entries M i)))
           (seq 0 (csr_size M)).
Definition tocsc (M : csr) : csr := of_rows (map (csc_column M) (seq 0 (csr_size M))).

(** [__init__], l.687-722; [None] is the AssertionError of l.699 for vectors of another
    size.  One scalar and one vector (l.704: the TypeError is built but not raised) is not
    modelled. *)
Definition ac_init (PT : csr) (p : probs) (sym : bool) : option autocov :=
  let ok := match p with
            | PScal _ _ => true
            | PVec p1 p2 => (length p1 =? csr_size PT) && (length p2 =? csr_size PT)
            end in
  if ok then
    let PTs := sort_indices PT in
    Some (mkA PTs (if sym then PTs else tocsc PTs) p sym)
  else None.

(** element of outer(p1, p2), l.845-851 *)
Definition p0_at (p : probs) (i j : nat) : num :=
  match p with
  | PScal p1 p2 => (p1 * p2)%num
  | PVec p1 p2 => (nth i p1 0 * nth j p2 0)%num
  end.
(** [toarray], l.845-851 *)
Definition toarray (A : autocov) (i j : nat) : num := (value (a_PT A) i j - p0_at (a_p A) i j)%num.

(** ** Queries *)

(** kernel [get_submat_sum], _cython_sparse_stoch.pyx l.637-662 *)
Definition submat_sum (M : csr) (rows cols : list nat) : num :=
  fold_left (fun s row =>
    fold_left (fun s e => if memb (fst e) cols then (s + snd e)%num else s) (row_entries M row) s)
    rows 0%num.
(** [get_submat_sum], l.854-873: einsum("i,j->i", a, b).sum() is sum(a) * sum(b) *)
Definition ac_submat_sum (A : autocov) (rows cols : list nat) : num :=
  let p0 := match a_p A with
            | PScal p1 p2 => (qn (length rows) * qn (length cols) * (p1 * p2))%num
            | PVec p1 p2 => sumL (fun i => (nth i p1 0 * sumL (fun j => nth j p2 0%num) cols)%num) rows
            end in
  (submat_sum (a_PT A) rows cols - p0)%num.
(** [get_element], l.875-887: only the first stored match *)
Definition ac_element (A : autocov) (i j : nat) : num :=
  match find (fun e => fst e =? j) (row_entries (a_PT A) i) with
  | None => (- p0_at (a_p A) i j)%num
  | Some e => (snd e - p0_at (a_p A) i j)%num
  end.
(** [get_row_idx_sum], l.889-916 *)
Definition ac_row_sum (A : autocov) (row : nat) (idx : list nat) : num :=
  let p0 := match a_p A with
            | PScal p1 p2 => (qn (length idx) * (p1 * p2))%num
            | PVec p1 p2 => sumL (fun j => (nth row p1 0 * nth j p2 0)%num) idx
            end in
  (submat_sum (a_PT A) [row] idx - p0)%num.
(** [get_col_idx_sum], l.918-946 *)
Definition ac_col_sum (A : autocov) (col : nat) (idx : list nat) : num :=
  let p0 := match a_p A with
            | PScal p1 p2 => (qn (length idx) * (p1 * p2))%num
            | PVec p1 p2 => sumL (fun i => (nth i p1 0 * nth col p2 0)%num) idx
            end in
  (submat_sum (a_PTcsc A) [col] idx - p0)%num.

(** ** Gains *)

(** the search for the diagonal element, _cython_sparse_stoch.pyx l.771-780 and l.861-870,
    from position [j] on; what it adds to the sum *)
Fixpoint diag_from (fuel : nat) (M : csr) (k stop j : nat) : option num :=
  match nth_error (c_idx M) j with
  | None => None
  | Some l =>
      if (l <? k) && (S j <? stop)
      then match fuel with 0 => None | S f => diag_from f M k stop (S j) end
      else if l =? k then nth_error (c_data M) j else Some 0%num
  end.
Definition diag_search (M : csr) (k : nat) : option num :=
  let start := nth k (c_ptr M) 0 in let stop := nth (S k) (c_ptr M) 0 in
  diag_from (stop - start) M k stop start.

(** the two loops over row k and column k, l.763-768 *)
Definition crossing (A : autocov) (k : nat) (idx : list nat) : num :=
  fold_left (fun s e => if memb (fst e) idx then (s + snd e)%num else s) (row_entries (a_PTcsc A) k)
    (fold_left (fun s e => if memb (fst e) idx then (s + snd e)%num else s) (row_entries (a_PT A) k) 0%num).
(** the same with [s -= ...], l.853-858 *)
Definition crossing_out (A : autocov) (k : nat) (idx : list nat) : num :=
  fold_left (fun s e => if memb (fst e) idx then (s - snd e)%num else s) (row_entries (a_PTcsc A) k)
    (fold_left (fun s e => if memb (fst e) idx then (s - snd e)%num else s) (row_entries (a_PT A) k) 0%num).
(** [compute_delta_PT_moveto], l.740-783 *)
Definition delta_PT_moveto (A : autocov) (k : nat) (idx : list nat) : option num :=
  match diag_search (a_PT A) k with Some d => Some (crossing A k idx + d)%num | None => None end.
(** [compute_delta_PT_moveout], l.830-873 *)
Definition delta_PT_moveout (A : autocov) (k : nat) (idx : list nat) : option num :=
  match diag_search (a_PT A) k with Some d => Some (crossing_out A k idx + d)%num | None => None end.
(** [_compute_delta_S_moveto], l.1033-1064, with the kernel compute_delta_S_moveto l.787-826 *)
Definition ac_moveto (A : autocov) (k : nat) (idx : list nat) : option num :=
  match delta_PT_moveto A k idx with
  | None => None
  | Some s =>
      match a_p A with
      | PScal p1 p2 => Some (s - qn (2 * length idx + 1) * (p1 * p2))%num
      | PVec p1 p2 =>
          Some (fold_left (fun s i => (s - nth k p1 0 * nth i p2 0 - nth i p1 0 * nth k p2 0)%num) idx s
                - nth k p1 0 * nth k p2 0)%num
      end
  end.
(** [_compute_delta_S_moveout], l.1067-1098, with the kernel compute_delta_S_moveout
    l.876-918; [2*len(idx)-1] is an integer, possibly -1 *)
Definition ac_moveout (A : autocov) (k : nat) (idx : list nat) : option num :=
  match delta_PT_moveout A k idx with
  | None => None
  | Some s =>
      match a_p A with
      | PScal p1 p2 => Some (s + qz (2 * Z.of_nat (length idx) - 1) * (p1 * p2))%num
      | PVec p1 p2 =>
          Some (fold_left (fun s i => (s + nth k p1 0 * nth i p2 0 + nth i p1 0 * nth k p2 0)%num) idx s
                - nth k p1 0 * nth k p2 0)%num
      end
  end.

(** ** Aggregation *)

(** COO triples ((row, column), value) *)
Definition triple := (nat * nat * num)%type.
(** [aggregate_csr_mat], l.666-697: blocks with a positive sum *)
Definition aggregate_v1 (M : csr) (idx_list : list (list nat)) : list triple :=
  flat_map (fun r => flat_map (fun c =>
    let pt := submat_sum M (nth r idx_list []) (nth c idx_list []) in
    if qltb 0%num pt then [(r, c, pt)] else []) (seq 0 (length idx_list))) (seq 0 (length idx_list)).
(** the map AtoB of l.719-722; the last write wins, an absent key reads 0 *)
Fixpoint a_to_b (kb : nat) (idx_list : list (list nat)) (x acc : nat) : nat :=
  match idx_list with
  | [] => acc
  | c :: r => a_to_b (S kb) r x (if memb x c then kb else acc)
  end.
(** [aggregate_csr_mat_2], l.701-736 *)
Definition aggregate_v2 (M : csr) (idx_list : list (list nat)) : list triple :=
  flat_map (fun row =>
    map (fun e => (a_to_b 0 idx_list row 0, a_to_b 0 idx_list (fst e) 0, snd e)) (row_entries M row))
    (seq 0 (csr_size M)).
(** [coo_matrix(...).tocsr()]: repeated positions are summed, columns sorted *)
Definition coo_row (l : list triple) (r : nat) : list (nat * num) :=
  let mine := filter (fun t => fst (fst t) =? r) l in
  map (fun c => (c, sumL (fun t => if snd (fst t) =? c then snd t else 0%num) mine))
      (unique (map (fun t => snd (fst t)) mine)).
Definition coo_to_csr (n : nat) (l : list triple) : csr := of_rows (map (coo_row l) (seq 0 n)).

(** [x / x.sum()] *)
Definition normalised (v : list num) : list num := map (fun x => (x / sumL (fun y => y) v)%num) v.
(** [aggregate], l.950-1011.  A zero sum of the new p1 or p2 (NaN in the code) is a division
    by zero in [normalised], where the theorems require the sum to be 1. *)
Definition ac_aggregate (A : autocov) (idx_list : list (list nat)) : option autocov :=
  let new_size := length idx_list in
  let triples := if new_size * new_size <? length (c_data (a_PT A))
                 then aggregate_v1 (a_PT A) idx_list else aggregate_v2 (a_PT A) idx_list in
  let '(oldp1, oldp2) :=
    match a_p A with
    | PScal _ _ => let u := repeat (1 / qn (a_size A))%num (a_size A) in (u, u)
    | PVec p1 p2 => (p1, p2)
    end in
  let agg p := map (fun idx => sumL (fun i => nth i p 0%num) idx) idx_list in
  ac_init (coo_to_csr new_size triples) (PVec (normalised (agg oldp1)) (normalised (agg oldp2))) (a_sym A).

(** ** is_all_zeros *)

(** np.allclose(a, b) on two numbers: |a - b| <= 1e-8 + 1e-5 |b| *)
Definition allclose (a b : num) : bool :=
  qleb (qabs (a - b)) (qf 1 100000000 + qf 1 100000 * qabs b).
(** [is_all_zeros], l.1014-1031 *)
Definition is_all_zeros (A : autocov) : bool :=
  forallb (fun row =>
    forallb (fun e => allclose (snd e) (p0_at (a_p A) row (fst e))) (row_entries (a_PT A) row))
    (seq 0 (a_size A)).

(** ** Scaling *)

(** [inplace_diag_matmul_csr], l.645-672, on a CSR matrix: row i scaled by d[i]; [None] is the
    AssertionError *)
Definition scale_rows (M : csr) (d : list num) : option csr :=
  if length d =? csr_size M
  then Some (mkCsr (concat (map (fun i => map (fun e => (nth i d 0 * snd e)%num) (row_entries M i))
                                (seq 0 (csr_size M)))) (c_idx M) (c_ptr M))
  else None.
(** [inplace_csr_matmul_diag], l.613-642: column j scaled by d[j] *)
Definition scale_cols (M : csr) (d : list num) : option csr :=
  if length d =? csr_size M
  then Some (mkCsr (map (fun k => (nth k (c_data M) 0 * nth (nth k (c_idx M) 0%nat) d 0)%num)
                        (seq 0 (length (c_data M)))) (c_idx M) (c_ptr M))
  else None.

(** ** Construction from a transition matrix *)

(** [p1 @ T] *)
Definition vec_csr (n : nat) (v : list num) (T : csr) : list num :=
  map (fun j => sumN n (fun i => (nth i v 0 * value T i j)%num)) (seq 0 n).
Definition uniform (n : nat) : list num := repeat (1 / qn n)%num n.
(** the size assertions of l.757-768 *)
Definition given (n : nat) (p : option (list num)) (default : list num) : option (list num) :=
  match p with
  | None => Some default
  | Some v => if length v =? n then Some v else None
  end.
(** [from_T], l.734-775 *)
Definition from_T (T : csr) (p1 p2 : option (list num)) : option autocov :=
  let n := csr_size T in
  match given n p1 (uniform n) with
  | None => None
  | Some q1 =>
      match given n p2 (vec_csr n q1 T) with
      | None => None
      | Some q2 =>
          match scale_rows T q1 with
          | None => None
          | Some PT => ac_init PT (PVec q1 q2) false
          end
      end
  end.
(** l.817-819: 1/p2 with zeros replaced by 1 *)
Definition inverse_or_one (v : list num) : list num :=
  map (fun x => if qeqb x 0%num then 1%num else (1 / x)%num) v.
(** [from_T_forward], l.778-834 *)
Definition from_T_forward (sp : scipy) (T : csr) (p1 p2 : option (list num)) : option autocov :=
  let n := csr_size T in
  match given n p1 (uniform n) with
  | None => None
  | Some q1 =>
      match given n p2 (vec_csr n q1 T) with
      | None => None
      | Some q2 =>
          match scale_cols T (inverse_or_one q2) with
          | None => None
          | Some M1 =>
              match scale_rows (matmul sp M1 (transp sp T)) q1 with
              | None => None
              | Some M2 =>
                  match scale_cols M2 q1 with
                  | None => None
                  | Some M3 =>
                      ac_init M3 (match p1 with
                                  | None => PScal (nth 0 q1 0%num) (nth 0 q1 0%num)
                                  | Some _ => PVec q1 q1
                                  end) true
                  end
              end
          end
      end
  end.
