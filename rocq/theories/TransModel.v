(** Model of the transition matrices of /repo/src/flowstab/temporal_network.py: inter-event
    matrices l.1328-1448 and their linear approximation l.1450-1567, products l.1569-1740,
    stationary matrices l.1742-1776 and l.2221-2273, differences, saving and loading
    l.407-566, l.696-788 and l.1844-1902, the linear interpolation l.2164-2218, and the
    assembly of matrix exponentials l.2275-2360, l.2404-2424, l.2495-2566 and
    /repo/src/flowstab/parallel_expm.py l.35-330.

    Simplifications: a sparse matrix is the function giving its entries, except where the
    arrays are built by the code (then [csr]); files, messages and computing times are left
    out; scipy's [expm] and [connected_components] and numpy's NaN are not modelled: the
    former are parameters, and a NaN or an exception is [None]. *)
From Verif Require Import Base LouvainModel SparseModel EventsModel.
Local Open Scope bool_scope.

(** ** Matrices *)
Definition ident : mat := fun i j => if i =? j then 1%num else 0%num.
Definition mmul (n : nat) (A B : mat) : mat := fun i j => sumN n (fun k => (A i k * B k j)%num).
Definition mplus (A B : mat) : mat := fun i j => (A i j + B i j)%num.
Definition mminus (A B : mat) : mat := fun i j => (A i j - B i j)%num.
Definition mscal (c : num) (A : mat) : mat := fun i j => (c * A i j)%num.
(** [inplace_csr_row_normalize] (C24, C58): rows of sum 0 are left alone *)
Definition rownorm (n : nat) (A : mat) : mat := fun i j =>
  let s := sumN n (A i) in if qeqb s 0%num then A i j else (A i j / s)%num.
Definition pairs_of (n : nat) : list (nat * nat) := list_prod (seq 0 n) (seq 0 n).
Definition absmax (n : nat) (A : mat) : num :=
  fold_left (fun m ij => qmax m (qabs (A (fst ij) (snd ij)))) (pairs_of n) 0%num.
(** [set_to_zeroes] with its default options on a csr matrix, l.2646-2668 (C26): not the
    absolute value is compared *)
Definition zeroed (n : nat) (tol : num) (A : mat) : mat := fun i j =>
  if qleb (A i j) (tol * absmax n A)%num then 0%num else A i j.
(** [L.getnnz() == 0] *)
Definition has_entries (n : nat) (A : mat) : bool :=
  existsb (fun ij => negb (qeqb (A (fst ij) (snd ij)) 0%num)) (pairs_of n).

(** ** lin_approx_trans_matrix, l.2164-2218; [None]: ValueError *)
Definition lin_approx (T : mat) (t : num) (Pi : mat) (t_s : num) : option mat :=
  if qltb t 0%num then None
  else if qleb t 1%num then Some (mplus (mscal (1 - t)%num ident) (mscal t T))
  else if qltb t t_s then Some (mscal (1 / (1 - t_s))%num (mplus (mscal (t - t_s)%num T) (mscal (1 - t)%num Pi)))
  else Some Pi.

(** ** compute_stationary_transition, l.2221-2273
    [lab] are the labels given by [connected_components]; [degs] is the difference of
    [indptr] after [eliminate_zeros]. *)
Definition members (n : nat) (lab : nat -> nat) (c : nat) : list nat := filter (fun j => lab j =? c) (seq 0 n).
Definition degs_of (T : csr) (i : nat) : nat := length (row_entries (eliminate_zeros T) i).
Definition stationary_transition (n : nat) (lab : nat -> nat) (T : csr) : csr :=
  of_rows (map (fun row =>
    let cmp := members n lab (lab row) in
    map (fun j => (j, (qn (degs_of T j) / sumL (fun k => qn (degs_of T k)) cmp)%num)) cmp) (seq 0 n)).

(** ** The network *)
Inductive tval := Many (l : list mat) | One (A : mat).
(** [t_inter]: [inter_T], for each lamda whether the matrices are SparseStochMat, and the
    matrices; the keys (lamda, t_s) of the nested dictionaries [inter_T_lin] and [T_lin]
    are pairs *)
Record tn := mkTn {
  t_lap : option (nat * nat * list mat);
  t_inter : list (num * (bool * list mat));
  t_T : list (num * tval);
  t_delta : list (num * list mat);
  t_stat : option (list mat);
  t_inter_lin : list ((num * num) * list mat);
  t_T_lin : list ((num * num) * tval) }.
(** a new network *)
Definition tn0 : tn := mkTn None [] [] [] None [] [].
Definition set_lap (st : tn) (x : option (nat * nat * list mat)) : tn :=
  mkTn x (t_inter st) (t_T st) (t_delta st) (t_stat st) (t_inter_lin st) (t_T_lin st).
Definition set_inter (st : tn) (x : list (num * (bool * list mat))) : tn :=
  mkTn (t_lap st) x (t_T st) (t_delta st) (t_stat st) (t_inter_lin st) (t_T_lin st).
Definition set_T (st : tn) (x : list (num * tval)) : tn :=
  mkTn (t_lap st) (t_inter st) x (t_delta st) (t_stat st) (t_inter_lin st) (t_T_lin st).
Definition set_delta (st : tn) (x : list (num * list mat)) : tn :=
  mkTn (t_lap st) (t_inter st) (t_T st) x (t_stat st) (t_inter_lin st) (t_T_lin st).
Definition set_stat (st : tn) (x : option (list mat)) : tn :=
  mkTn (t_lap st) (t_inter st) (t_T st) (t_delta st) x (t_inter_lin st) (t_T_lin st).
Definition set_inter_lin (st : tn) (x : list ((num * num) * list mat)) : tn :=
  mkTn (t_lap st) (t_inter st) (t_T st) (t_delta st) (t_stat st) x (t_T_lin st).
Definition set_T_lin (st : tn) (x : list ((num * num) * tval)) : tn :=
  mkTn (t_lap st) (t_inter st) (t_T st) (t_delta st) (t_stat st) (t_inter_lin st) x.

(** dictionaries *)
Section Dict.
Context {K V : Type} (eqb : K -> K -> bool).
Fixpoint aget (d : list (K * V)) (k : K) : option V :=
  match d with [] => None | (k', v) :: r => if eqb k k' then Some v else aget r k end.
Fixpoint aset (d : list (K * V)) (k : K) (v : V) : list (K * V) :=
  match d with [] => [(k, v)] | (k', v') :: r => if eqb k k' then (k', v) :: r else (k', v') :: aset r k v end.
End Dict.
Definition pair_eqb (a b : num * num) : bool := qeqb (fst a) (fst b) && qeqb (snd a) (snd b).

(** [1/np.median(np.diff(self.times))], l.1390 and l.1487; [None]: fewer than two times *)
Fixpoint diffs (l : list num) : list num :=
  match l with a :: (b :: _) as r => (b - a)%num :: diffs r | _ => [] end.
Fixpoint num_insert (x : num) (l : list num) : list num :=
  match l with [] => [x] | y :: r => if qleb x y then x :: l else y :: num_insert x r end.
Definition num_sort (l : list num) : list num := fold_right num_insert [] l.
Definition median (l : list num) : num :=
  let s := num_sort l in let m := length l in
  if Nat.even m then ((nth (m / 2 - 1) s 0 + nth (m / 2) s 0) / 2)%num else nth (m / 2) s 0%num.
Definition default_lamda (ts : list num) : option num :=
  match diffs ts with [] => None | l => Some (1 / median l)%num end.

Section Net.
(** number of nodes, times, [compute_laplacian_matrices] (of ContTempNetwork or
    ContTempInstNetwork), [expm(-x*L)], [set_to_zeroes(A, tol)] and
    [compute_stationary_transition] *)
Context (n : nat) (ts : list num)
  (lapf : option num -> option num -> option (nat * nat * list mat))
  (E : num -> mat -> mat) (Z : num -> mat -> mat) (P : mat -> mat).

(** [compute_laplacian_matrices(t_start, t_stop)] replaces the Laplacians *)
Definition compute_lap (t_start t_stop : option num) (st : tn) : option tn :=
  match lapf t_start t_stop with Some l => Some (set_lap st (Some l)) | None => None end.
(** [if not hasattr(self, "laplacians")], l.1383 and l.1746 *)
Definition ensure_lap (t_start t_stop : option num) (st : tn) : option tn :=
  match t_lap st with Some _ => Some st | None => compute_lap t_start t_stop st end.

(** l.1402-1428: one step; [enumerate(self.times[k_start:k_stop])] *)
Definition tau (fix_tau_k : bool) (tk tk1 : num) : num := if fix_tau_k then 1%num else (tk1 - tk)%num.
Definition inter_step (x : num) (L : mat) : mat := if has_entries n L then E x L else ident.
Definition steps (k_start k_stop : nat) : list nat := seq 0 (length (firstn (k_stop - k_start) (skipn k_start ts))).
(** applies [f tau_k L_k k] at every step; [None]: IndexError or an exception of [f] *)
Definition per_step (fix_tau_k : bool) (lap : nat * nat * list mat) (f : num -> mat -> nat -> option mat) : option (list mat) :=
  let '(k_start, k_stop, Ls) := lap in
  all_some (map (fun k =>
    match nth_error ts (k_start + k), nth_error ts (k_start + k + 1), nth_error Ls k with
    | Some tk, Some tk1, Some L => f (tau fix_tau_k tk tk1) L k
    | _, _, _ => None
    end) (steps k_start k_stop)).
Definition inter_matrices (fix_tau_k : bool) (lamda : num) (lap : nat * nat * list mat) : option (list mat) :=
  match per_step fix_tau_k lap (fun tk L _ => Some (inter_step (tk * lamda)%num L)) with
  | Some [] => Some [ident]
  | r => r
  end.
Definition the_lamda (lamda : option num) : option num :=
  match lamda with Some x => Some x | None => default_lamda ts end.
(** [compute_inter_transition_matrices], l.1328-1448 *)
Definition compute_inter (lamda t_start t_stop : option num) (fix_tau_k use_sparse_stoch : bool) (st : tn) : option tn :=
  match ensure_lap t_start t_stop st, the_lamda lamda with
  | Some st1, Some x =>
      match aget qeqb (t_inter st1) x, t_lap st1 with
      | Some _, _ => Some st1
      | None, Some lap =>
          match inter_matrices fix_tau_k x lap with
          | Some l => Some (set_inter st1 (aset qeqb (t_inter st1) x (use_sparse_stoch, l)))
          | None => None
          end
      | None, None => None
      end
  | _, _ => None
  end.

(** ** compute_transition_matrices, l.1569-1659 *)
Definition trim (tol : option num) (A : mat) : mat := match tol with Some t => Z t A | None => A end.
(** a factor after l.1606-1607, l.1615-1616 or l.1631-1633 *)
Definition clean (tol : option num) (A : mat) : mat := match tol with Some t => rownorm n (Z t A) | None => A end.
(** l.1625-1651; the last product is normalised in any case *)
Fixpoint products (tol : option num) (T : mat) (l : list mat) : list mat :=
  match l with
  | [] => []
  | A :: r => let T1 := rownorm n (trim tol (mmul n T (clean tol A))) in T1 :: products tol T1 r
  end.
(** [set_to_zeroes] and [inplace_csr_row_normalize] work on the matrices of [inter_T]
    themselves, except on a copy made by [tocsr] of a SparseStochMat *)
Definition cleaned (tol : option num) (reverse copied : bool) (l : list mat) : list mat :=
  match tol with
  | None => l
  | Some _ =>
      if copied
      then if reverse then map (clean tol) (removelast l) ++ [last l ident]
           else match l with [] => [] | A :: r => A :: map (clean tol) r end
      else map (clean tol) l
  end.
Definition compute_trans (lamda : num) (save_intermediate reverse_time force_csr : bool) (tol : option num) (st : tn) : option tn :=
  match aget qeqb (t_inter st) lamda with
  | None => None
  | Some (sparse, l) =>
      match aget qeqb (t_T st) lamda with
      | Some _ => Some st
      | None =>
          match (if reverse_time then rev l else l) with
          | [] => None
          | A :: r =>
              let T0 := clean tol A in
              let out := T0 :: products tol T0 r in
              let st1 := set_inter st (aset qeqb (t_inter st) lamda (sparse, cleaned tol reverse_time (force_csr && sparse) l)) in
              Some (set_T st1 (aset qeqb (t_T st1) lamda (if save_intermediate then Many out else One (last out ident))))
          end
      end
  end.

(** ** Linear approximation *)
(** [_compute_stationary_transition], l.1742-1776 *)
Definition compute_stat (t_start t_stop : option num) (st : tn) : option tn :=
  match ensure_lap t_start t_stop st with
  | Some st1 => match t_lap st1 with
                | Some (_, _, Ls) => Some (set_stat st1 (Some (map (fun L => P (mminus ident L)) Ls)))
                | None => None
                end
  | None => None
  end.
(** [compute_lin_inter_transition_matrices], l.1450-1567; without steps and with
    [use_sparse_stoch], l.1555 appends to a dictionary: AttributeError *)
Definition compute_lin_inter (lamda t_start t_stop : option num) (t_s : num) (fix_tau_k use_sparse_stoch : bool) (st : tn) : option tn :=
  match (match t_stat st with Some _ => Some st | None => compute_stat t_start t_stop st end), the_lamda lamda with
  | Some st1, Some x =>
      match aget pair_eqb (t_inter_lin st1) (x, t_s), t_lap st1, t_stat st1 with
      | Some _, _, _ => Some st1
      | None, Some lap, Some Pis =>
          match per_step fix_tau_k lap (fun tk L k => match nth_error Pis k with
                                                     | Some Pi => lin_approx (mminus ident L) (tk * x)%num Pi t_s
                                                     | None => None
                                                     end) with
          | Some [] => if use_sparse_stoch then None
                       else Some (set_inter_lin st1 (aset pair_eqb (t_inter_lin st1) (x, t_s) [ident]))
          | Some l => Some (set_inter_lin st1 (aset pair_eqb (t_inter_lin st1) (x, t_s) l))
          | None => None
          end
      | _, _, _ => None
      end
  | _, _ => None
  end.
(** [compute_lin_transition_matrices], l.1661-1740 *)
Definition compute_lin_trans (lamda t_s : num) (save_intermediate reverse_time : bool) (st : tn) : option tn :=
  match aget pair_eqb (t_inter_lin st) (lamda, t_s) with
  | None => None
  | Some l =>
      match aget pair_eqb (t_T_lin st) (lamda, t_s) with
      | Some _ => Some st
      | None =>
          match (if reverse_time then rev l else l) with
          | [] => None
          | A :: r =>
              let out := A :: products None A r in
              Some (set_T_lin st (aset pair_eqb (t_T_lin st) (lamda, t_s) (if save_intermediate then Many out else One (last out ident))))
          end
      end
  end.

(** ** Differences, l.1844-1864, saving, l.407-566, and loading, l.696-750 *)
Fixpoint mdiffs (l : list mat) : list mat :=
  match l with A :: (B :: _) as r => mminus B A :: mdiffs r | _ => [] end.
Definition rounded (round_zeros : bool) (tol : num) (A : mat) : mat := if round_zeros then Z tol A else A.
Definition compute_delta (lamda : num) (round_zeros : bool) (tol : num) (st : tn) : tn :=
  match aget qeqb (t_inter st) lamda, aget qeqb (t_delta st) lamda with
  | Some (_, l), None => set_delta st (aset qeqb (t_delta st) lamda (map (rounded round_zeros tol) (mdiffs l)))
  | _, _ => st
  end.
Inductive file := FDelta (d : list (num * (mat * list mat))) | FSparse (d : list (num * list mat)).
(** l.526-543: every lamda to be saved must have SparseStochMat matrices *)
Fixpoint save_sparse (round_zeros : bool) (tol : num) (lamdas : list num) (st : tn) : option (list (num * list mat) * tn) :=
  match lamdas with
  | [] => Some ([], st)
  | x :: r =>
      match aget qeqb (t_inter st) x with
      | Some (true, A :: l) =>
          let l' := map (rounded round_zeros tol) (A :: l) in
          match save_sparse round_zeros tol r (set_inter st (aset qeqb (t_inter st) x (true, l'))) with
          | Some (d, st') => Some ((x, l') :: d, st')
          | None => None
          end
      | _ => None
      end
  end.
(** With [save_delta], l.484 looks up [inter_T[lamda]] also for lamda = None: KeyError *)
Definition save_inter_T (lamda : option num) (round_zeros : bool) (tol : num) (save_delta : bool) (st : tn) : option (file * tn) :=
  match t_inter st with
  | [] => None
  | _ =>
      if save_delta then
        match lamda with
        | None => None
        | Some x =>
            match aget qeqb (t_inter st) x with
            | Some (false, A :: _) =>
                let st1 := compute_delta x round_zeros tol st in
                match aget qeqb (t_delta st1) x with
                | Some d => Some (FDelta [(x, (rounded round_zeros tol A, d))], st1)
                | None => None
                end
            | _ => None
            end
        end
      else
        match save_sparse round_zeros tol (match lamda with Some x => [x] | None => map fst (t_inter st) end) st with
        | Some (d, st') => Some (FSparse d, st')
        | None => None
        end
  end.
Fixpoint cumulate (A : mat) (ds : list mat) : list mat :=
  match ds with [] => [A] | D :: r => A :: cumulate (mplus A D) r end.
Definition load_inter_T (f : file) : list (num * list mat) :=
  match f with
  | FSparse d => d
  | FDelta d => map (fun e => (fst e, cumulate (fst (snd e)) (snd (snd e)))) d
  end.
End Net.

(** ** Matrix exponentials by parts *)
(** [A[idx,:][:,idx]] *)
Definition sub (idx : list nat) (A : mat) : mat := fun a b => A (nth a idx 0) (nth b idx 0).
Fixpoint position (x : nat) (l : list nat) : nat :=
  match l with [] => 0 | y :: r => if x =? y then 0 else S (position x r) end.
(** [csr_matrix(dense)] *)
Definition csr_of_dense (n : nat) (A : mat) : csr :=
  of_rows (map (fun i => filter (fun e => negb (qeqb (snd e) 0%num)) (map (fun j => (j, A i j)) (seq 0 n))) (seq 0 n)).
(** l.2325-2347 and parallel_expm.py l.232-262: the matrix of the component of each row,
    spread over the columns of the component *)
Definition assemble (n : nat) (lab : nat -> nat) (X : nat -> mat) : csr :=
  of_rows (map (fun row =>
    let cmp := members n lab (lab row) in
    let r := position row cmp in
    map (fun b => (nth b cmp 0, X (lab row) r b)) (seq 0 (length cmp))) (seq 0 n)).
(** l.2352-2354: entries below the maximum over [thresh_ratio] are deleted *)
Definition thresholded (thresh_ratio : option num) (M : csr) : csr :=
  match thresh_ratio with
  | None => M
  | Some r => let b := (list_max (c_data M) / r)%num in
              eliminate_zeros (mkCsr (map (fun v => if qltb v b then 0%num else v) (c_data M)) (c_idx M) (c_ptr M))
  end.
Definition finished (n : nat) (thresh_ratio : option num) (normalize_rows : bool) (M : csr) : csr :=
  let M1 := thresholded thresh_ratio M in
  if normalize_rows then csr_row_normalise M1 n (fun _ => 1%num) else M1.

Section Expm.
(** [expm] of an m x m matrix, and [expm_multiply(A, v)] *)
Context (F : nat -> mat -> mat) (G : nat -> mat -> (nat -> num) -> nat -> num).

(** [compute_subspace_expm], l.2275-2360: the list [subnets_expms] is indexed by the label *)
Definition subspace_expm (n : nat) (A : mat) (n_comp : nat) (lab : nat -> nat) (thresh_ratio : option num) (normalize_rows : bool) : csr :=
  let subnets := map (fun c => let idx := members n lab c in F (length idx) (sub idx A)) (seq 0 n_comp) in
  finished n thresh_ratio normalize_rows (assemble n lab (fun c => nth c subnets ident)).

(** parallel_expm.py, [compute_parallel_expm] l.58-122 without threshold and
    normalisation: the results of the workers are the columns *)
Definition parallel_expm (m : nat) (A : mat) : mat :=
  let res := map (fun i => G m A (fun k => if k =? i then 1%num else 0%num)) (seq 0 m) in
  fun a b => nth b res (fun _ => 0%num) a.
(** [compute_subspace_expm_parallel], l.150-275: a dictionary of the results, first the
    large components, then the small ones *)
Definition subspace_expm_parallel (big : nat) (n : nat) (A : mat) (n_comp : nat) (lab : nat -> nat) (thresh_ratio : option num) (normalize_rows : bool) : csr :=
  let idx c := members n lab c in
  let size c := length (idx c) in
  let large := filter (fun c => big <=? size c) (seq 0 n_comp) in
  let small := filter (fun c => size c <? big) (seq 0 n_comp) in
  let d1 := fold_left (fun d c => aset Nat.eqb d c (parallel_expm (size c) (sub (idx c) A))) large [] in
  let res := map (fun c => F (size c) (sub (idx c) A)) small in
  let d2 := fold_left (fun d cr => aset Nat.eqb d (fst cr) (snd cr)) (combine small res) d1 in
  finished n thresh_ratio normalize_rows
    (assemble n lab (fun c => match aget Nat.eqb d2 c with Some X => X | None => ident end)).

(** [remove_nnz_rowcol], l.2404-2424 *)
Definition used (n : nat) (L : mat) (i : nat) : bool :=
  existsb (fun j => negb (qeqb (L i j) 0%num)) (seq 0 n) || existsb (fun j => negb (qeqb (L j i) 0%num)) (seq 0 n).
Definition used_rowcols (n : nat) (L : mat) : list nat := filter (used n L) (seq 0 n).
(** [sparse_lapl_expm], l.2495-2566; [comps] is [connected_components] *)
Definition sparse_lapl_expm (big : nat) (comps : nat -> mat -> nat * (nat -> nat)) (n : nat) (L : mat) (fact : num)
  (dense_expm : bool) (nproc : nat) (thresh_ratio : option num) (normalize_rows : bool) : option ssm :=
  if has_entries n L then
    let nz := used_rowcols n L in
    let m := length nz in
    let Ls := sub nz L in
    let A := mscal (- fact)%num Ls in
    let '(n_comp, lab) := comps m Ls in
    let T_small :=
      if dense_expm then csr_of_dense m (F m A)
      else if (big <=? m) && (1 <? n_comp)
           then if nproc =? 1 then subspace_expm m A n_comp lab thresh_ratio normalize_rows
                else subspace_expm_parallel big m A n_comp lab thresh_ratio normalize_rows
           else csr_of_dense m (F m A) in
    ssm_init n T_small nz 1%num
  else ssm_init n (mkCsr [] [] [0]) [] 1%num.
End Expm.
