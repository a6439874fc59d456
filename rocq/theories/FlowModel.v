(** Model of [FlowIntegralClustering], /repo/src/flowstab/network_clustering.py l.1754-2149,
    of its use by [FlowStability.set_flow_clustering], /repo/src/flowstab/flow_stability.py
    l.639-682.

    Simplifications: a matrix is the function giving its entries, numbers are exact; the
    types of the arguments are not checked (l.1815-1855); (T diag(sqrt(1/p))) times its
    transpose, l.2024-2030, is written T diag(1/p) T^t; an exception, a NaN or an infinity is
    [None]; a [SparseAutocovMat] is given by the matrix it stands for (C28). *)
From Verif Require Import Base LouvainModel SparseModel EventsModel TransModel.
Local Open Scope bool_scope.

(** numpy arrays, or sparse matrices, whose products are computed with or without MKL: MKL
    fills the upper triangle of a Gram matrix only, sparse_stoch_mat.py l.1165-1177 *)
Inductive kind := Dense | Sparse (mkl : bool).

Section Flow.
Context (n : nat) (kd : kind).

(** [_compute_T_list], l.1937-1958; [None]: IndexError *)
Definition next_T (T A : mat) : mat :=
  match kd with Dense => mmul n T A | Sparse _ => rownorm n (mmul n T A) end.
Fixpoint T_from (T : mat) (l : list mat) : list mat :=
  match l with [] => [] | A :: r => next_T T A :: T_from (next_T T A) r end.
Definition compute_T_list (l : list mat) : option (list mat) :=
  match l with [] => None | A :: r => Some (A :: T_from A r) end.

(** ** Grid of the integrals, l.1873-1908 *)
Definition list_reverse (reverse_time : bool) {A : Type} (l : list A) : list A := if reverse_time then rev l else l.
(** [np.diff(integral_time_grid).mean()]; [None]: NaN *)
Definition direction (g : list num) : option num :=
  match diffs g with [] => None | d => Some (sumL (fun x => x) d / qn (length d))%num end.
Definition orient (reverse_time : bool) (g : list num) : list num :=
  match direction g with
  | None => g
  | Some d => if (reverse_time && qltb 0%num d) || (negb reverse_time && qltb d 0%num) then rev g else g
  end.
Definition snap (reverse_time : bool) (ts : list num) (t : num) : num :=
  if existsb (qeqb t) ts then t
  else let t0 := nth 0 ts 0%num in
  if (negb reverse_time && qleb t t0) || (reverse_time && qleb t0 t) then t0
  else if negb reverse_time then list_max (filter (fun s => qleb s t) ts)
  else list_min (filter (fun s => qleb t s) ts).
(** [int(np.where(self.time_list == t)[0])]: TypeError unless there is exactly one *)
Definition index_of (ts : list num) (t : num) : option nat :=
  match filter (fun k => qeqb (nth k ts 0%num) t) (seq 0 (length ts)) with [k] => Some k | _ => None end.
Definition time_grid (reverse_time : bool) (ts : list num) (g : option (list num)) : option (list nat * list num) :=
  match g with
  | None => Some ([0; length ts - 1], [nth 0 ts 0%num; nth (length ts - 1) ts 0%num])
  | Some g =>
      let tg := map (snap reverse_time ts) (orient reverse_time g) in
      match all_some (map (index_of ts) tg) with Some kg => Some (kg, tg) | None => None end
  end.

(** ** [_compute_integral], l.1960-2067 *)
Definition arrival (p : nat -> num) (T : mat) (k : nat) : num := sumN n (fun i => (p i * T i k)%num).
(** zeros are replaced by 1 *)
Definition safe (x : num) : num := if qeqb x 0%num then 1%num else x.
Definition gram (p : nat -> num) (T : mat) (dt : num) : mat := fun i j =>
  (sumN n (fun k => T i k * (1 / safe (arrival p T k)) * T j k) * dt)%num.
Definition upper (A : mat) : mat := fun i j => if i <=? j then A i j else 0%num.
(** [set_to_zeroes(A, rtol, use_absolute_value=True)], temporal_network.py l.2646-2668 *)
Definition zeroed_abs (rtol : option num) (A : mat) : mat := fun i j =>
  match rtol with
  | None => A i j
  | Some r => if qleb (qabs (A i j)) (r * absmax n A)%num then 0%num else A i j
  end.
(** l.2006-2041 *)
Definition add_step (rtol : option num) (p : nat -> num) (IPT T : mat) (dt : num) : mat :=
  match kd with
  | Dense => mplus IPT (gram p T dt)
  | Sparse mkl => mplus (zeroed_abs rtol IPT) (zeroed_abs rtol (if mkl then upper (gram p T dt) else gram p T dt))
  end.
(** l.2046-2059 *)
Definition weighted (p : nat -> num) (A : mat) (total : num) : mat := fun i j => (p i * A i j * p j * (1 / total))%num.
Definition finish (p : nat -> num) (IPT : mat) (total : num) : mat :=
  match kd with
  | Dense | Sparse false => weighted p IPT total
  | Sparse true => let A := weighted p IPT total in
      fun i j => (A i j + A j i - if i =? j then A i i else 0)%num
  end.
(** the loop, l.1998-2059; [k]: number of steps done *)
Fixpoint integrals (rtol : option num) (p : nat -> num) (kg : list nat) (k : nat) (IPT : mat) (total : num)
    (l : list (mat * num)) : option (list mat) :=
  match l with
  | [] => Some []
  | (T, dt) :: r =>
      let IPT' := add_step rtol p IPT T dt in
      let total' := (total + dt)%num in
      if memb (S k) kg then
        if qeqb total' 0%num then None
        else match integrals rtol p kg (S k) IPT' total' r with
             | Some out => Some (finish p IPT' total' :: out)
             | None => None
             end
      else integrals rtol p kg (S k) IPT' total' r
  end.
Definition dt_list (ts : list num) : list num :=
  if qltb (nth (length ts - 1) ts 0%num) (nth 0 ts 0%num) then map Qcopp (diffs ts) else diffs ts.
Definition compute_integral (rtol : option num) (p : nat -> num) (kg : list nat) (Ts : list mat) (ts : list num) : option (list mat) :=
  integrals rtol p kg 0 (fun _ _ => 0%num) 0%num (combine Ts (dt_list ts)).

(** ** [__init__], l.1803-1935 *)
Record flow := mkFlow { f_T : list mat; f_times : list num; f_k : list nat; f_t : list num; f_p : nat -> num; f_I : list mat }.
(** [list(range(len(self.T_list)+1))] *)
Definition unit_times (m : nat) : list num := map qn (seq 0 (m + 1)).
Definition uniform : nat -> num := fun _ => (1 / qn n)%num.
Definition flow_integral (T_list T_inter_list : option (list mat)) (p1 : option (nat -> num)) (time_list : option (list num))
    (grid : option (list num)) (reverse_time : bool) (rtol : option num) : option flow :=
  match (match T_list, T_inter_list with
         | Some Ts, _ => Some Ts
         | None, Some l => compute_T_list (list_reverse reverse_time l)
         | None, None => None
         end) with
  | None | Some [] => None
  | Some Ts =>
      let ts := list_reverse reverse_time (match time_list with Some ts => ts | None => unit_times (length Ts) end) in
      let p := match p1 with Some p => p | None => uniform end in
      match ts with [] => None | _ =>
      match time_grid reverse_time ts grid with
      | None => None
      | Some (kg, tg) =>
          match compute_integral rtol p kg Ts ts with
          | None => None
          | Some PTs => Some (mkFlow Ts ts kg tg p (map (fun A i j => (A i j - p i * p j)%num) PTs))
          end
      end end
  end.
End Flow.

(** ** [FlowStability.set_flow_clustering], flow_stability.py l.648-682, for one time scale and one
    direction: the matrices of the network, all times of the network *)
Definition set_flow (n : nat) (times : list num) (inter_T : list mat) (p1 : option (nat -> num)) (grid : option (list num))
    (reverse_time : bool) (rtol : option num) : option (flow) :=
  flow_integral n Dense None (Some inter_T) p1 (Some times) grid reverse_time rtol.
