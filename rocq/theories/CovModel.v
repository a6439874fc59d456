(** Model of the script /repo/src/flowstab/scripts/run_cov_integrals.py, for one waiting time
    (the names of all files contain it): the grid, l.240-252, [load_trans_mat], l.256-304,
    [worker], l.307-698, and the tasks of [main], l.704-726.

    Simplifications: a sparse matrix is the function giving its entries; numbers are exact;
    (T diag(sqrt(1/p))) times its transpose is written T diag(1/p) T^t; compressed copies of
    the integrals (name ending in ".gz"), which the script reads but never writes, and
    messages are left out; the indices of intervals are natural numbers; of [set_to_zeroes] on
    a [SparseStochMat] only what it does to the whole matrix is modelled. The tasks do not
    share memory: one task is run at a time. An exception inside the [try] of [worker] ends the
    task: its result is [None]. *)
From Verif Require Import Base LouvainModel SparseModel EventsModel TransModel FlowModel.
Local Open Scope bool_scope.

(** matrix exponentials, or their linear approximation *)
Inductive method := Expm | Lin.
(** what [load_inter_T] returns for one interval: the matrices, the times and the limits *)
Record slice := mkSlice { s_inter : list mat; s_times : list num; s_start : num; s_stop : num }.
(** the variables ITPT, Tk and integration_time *)
Record acc := mkAcc { a_I : mat; a_T : mat; a_t : num }.

(** ** The directory of the results *)
(** a file, possibly cut short because the process was killed while it wrote it *)
Inductive file (A : Type) := Whole (a : A) | Torn.
Arguments Whole {A} a.
Arguments Torn {A}.
(** [d_int]: "..._PT_a_to_b.pickle" and "..._PT_lin_a_to_b.pickle"; [d_tmp]:
    "..._temp_integration_a_to_b.pickle" *)
Record disk := mkDisk { d_int : method -> nat -> nat -> option (file (mat * num)); d_tmp : nat -> nat -> option (file (acc * nat)) }.
Inductive write := WInt (m : method) (a b : nat) (A : mat) (t : num) | WTmp (a b : nat) (x : acc) (last : nat).
Definition method_eqb (m m' : method) : bool := match m, m' with Expm, Expm | Lin, Lin => true | _, _ => false end.
(** [whole]: the process was not killed while writing *)
Definition put (whole : bool) (d : disk) (w : write) : disk :=
  match w with
  | WInt m a b A t => mkDisk (fun m' a' b' => if method_eqb m' m && (a' =? a) && (b' =? b) then Some (if whole then Whole (A, t) else Torn) else d_int d m' a' b') (d_tmp d)
  | WTmp a b x k => mkDisk (d_int d) (fun a' b' => if (a' =? a) && (b' =? b) then Some (if whole then Whole (x, k) else Torn) else d_tmp d a' b')
  end.
Definition puts (d : disk) (l : list write) : disk := fold_left (put true) l d.
(** a program: given the directory, what it writes, and its result unless it raises *)
Definition prog (A : Type) : Type := disk -> list write * option A.
Definition ret {A} (a : A) : prog A := fun _ => ([], Some a).
Definition fail {A} : prog A := fun _ => ([], None).
Definition emit (l : list write) : prog unit := fun _ => (l, Some tt).
Definition bind {A B} (c : prog A) (f : A -> prog B) : prog B := fun d =>
  match c d with
  | (l, Some a) => let (l', r) := f a (puts d l) in (l ++ l', r)
  | (l, None) => (l, None)
  end.
Definition lift {A} (o : option A) : prog A := match o with Some a => ret a | None => fail end.
Fixpoint loop {A B} (f : A -> B -> prog A) (l : list B) (a : A) : prog A :=
  match l with [] => ret a | b :: r => bind (f a b) (loop f r) end.

(** ** The grid, l.240-252; [count]: number of different intervals among the names of the
    files, l.226-238. [None]: ZeroDivisionError, or ValueError for a step of 0. *)
Definition step_of (num_points : nat) (int_length : option nat) (count : nat) : option nat :=
  match int_length with
  | Some k => Some k
  | None => match num_points with 0 => None | _ => Some (count / num_points) end
  end.
(** [range(0, count+1, k)] *)
Definition range_by (count k : nat) : option (list nat) :=
  match k with 0 => None | _ => Some (map (fun i => i * k) (seq 0 (S (count / k)))) end.
Definition grid (num_points : nat) (int_length : option nat) (int_list : list nat) (count : nat) : option (list nat) :=
  match int_list with
  | [] => match step_of num_points int_length count with Some k => range_by count k | None => None end
  | _ => Some int_list
  end.

(** ** The options of [worker]: [use_expm_transmats], [use_lin_transmats], l.181-186,
    [only_one_interval], [save_intermediate] *)
Record options := mkOpts { use_expm : bool; use_lin : bool; only_one : bool; save_temp : bool }.
(** [reverse_time]: true for integrals backward in time. Intervals where the flow starts at
    all_inds[ind_start], l.353-362; [None]: IndexError, which is not caught *)
Definition stops (one reverse_time : bool) (inds : list nat) (i : nat) : option (list nat) :=
  if reverse_time then
    (** inds[i-1::-1]: index -1 is the last one *)
    let l := rev (match i with 0 => inds | _ => firstn i inds end) in
    if one then match l with [] => None | b :: _ => Some [b] end else Some l
  else
    let l := skipn (S i) inds in
    if one then match l with [] => None | b :: _ => Some [b] end else Some l.
(** [range(a-1, b-1, -1)] and [range(a, b)] *)
Definition krange (reverse_time : bool) (a b : nat) : list nat :=
  if reverse_time then rev (seq b (a - b)) else seq a (b - a).

Section Worker.
Context (n : nat) (tol : num) (rtol : option num) (mkl : bool).
(** [inter m k]: the saved matrices of interval k; [trans m reverse_time k]: its saved
    transition matrix and duration. [None]: there is no such file, or it lacks the waiting
    time. *)
Context (inter : method -> nat -> option slice) (trans : method -> bool -> nat -> option (mat * num)).

(** [set_to_zeroes] and [inplace_csr_row_normalize], l.528-529 *)
Definition prep (A : mat) : mat := rownorm n (zeroed n tol A).
(** l.556-557, l.561-562 *)
Definition cut (A : mat) : mat := match rtol with None => A | Some r => zeroed n r A end.
(** one step, l.528-562 and l.605-639; with MKL only the upper triangle is computed *)
Definition add_one (x : acc) (y : mat * num) : acc :=
  let T := prep (mmul n (a_T x) (prep (fst y))) in
  let G := gram n (uniform n) T (snd y) in
  mkAcc (cut (mplus (a_I x) (cut (if mkl then upper G else G)))) T (a_t x).
(** [zip(inter_T[::d], d * np.diff(times[::d]))], l.523-524 and l.601-602 *)
Definition slice_steps (reverse_time : bool) (s : slice) : list (mat * num) :=
  combine (list_reverse reverse_time (s_inter s))
    (if reverse_time then map Qcopp (diffs (rev (s_times s))) else diffs (s_times s)).
(** l.522-576 *)
Definition add_slice (reverse_time : bool) (x : acc) (s : slice) : acc :=
  let y := fold_left add_one (slice_steps reverse_time s) x in
  mkAcc (a_I y) (a_T y) (a_t y + qabs (s_stop s - s_start s))%num.

(** [load_trans_mat], l.256-304 *)
Fixpoint load_trans (m : method) (reverse_time : bool) (ks : list nat) (T : mat) (t : num) : option (mat * num) :=
  match ks with
  | [] => Some (T, t)
  | k :: r => match trans m reverse_time k with
              | None => None
              | Some (A, dt) => load_trans m reverse_time r (prep (mmul n T (prep A))) (t + dt)%num
              end
  end.

(** ** Restarting, l.376-413 and l.415-454 *)
Definition exists_int (d : disk) (m : method) (a b : nat) : bool := match d_int d m a b with Some _ => true | None => false end.
Fixpoint prefix_len (l : list bool) : nat := match l with true :: r => S (prefix_len r) | _ => 0 end.
(** given the start, the remaining stops and the state: whether all integrals exist, and the
    new interval to start from, stops and state *)
Definition resume (o : options) (m : method) (reverse_time : bool) (a : nat) (from : nat) (sts : list nat) (x : acc)
    : prog (bool * (nat * list nat * acc)) := fun d =>
  let q := prefix_len (map (exists_int d m a) sts) in
  if q =? 0 then ret (false, (from, sts, x)) d
  else if q =? length sts then ret (true, (from, sts, x)) d
  else
    let b := nth (q - 1) sts 0 in
    match d_int d m a b with
    | Some (Whole (A, _)) =>
        match load_trans m reverse_time (krange reverse_time a b) ident 0%num with
        | None => fail d
        | Some (T, t) =>
            (** [assert use_lin_transmats != use_expm_transmats] *)
            if Bool.eqb (use_expm o) (use_lin o) then fail d
            else ret (false, (b, skipn q sts, mkAcc A T t)) d
        end
    | _ => fail d
    end.

(** ** One interval, l.489-641 *)
Definition expm_interval (o : options) (reverse_time : bool) (a : nat) (x : acc) (k : nat) : prog acc := fun d =>
  match (if save_temp o then d_tmp d a (k + 1) else None) with
  | Some (Whole (y, last)) => if last =? k then ret y d else fail d
  | Some Torn => fail d
  | None =>
      match inter Expm k with
      | None => fail d
      | Some s =>
          let y := add_slice reverse_time x s in
          bind (emit (if save_temp o && qltb 0%num (a_t y) then [WTmp a (k + 1) y k] else [])) (fun _ => ret y) d
      end
  end.
Definition lin_interval (reverse_time : bool) (x : acc) (k : nat) : prog acc :=
  match inter Lin k with None => fail | Some s => ret (add_slice reverse_time x s) end.
Definition interval (o : options) (ce cl reverse_time : bool) (a : nat) (xy : acc * acc) (k : nat) : prog (acc * acc) :=
  bind (if ce then expm_interval o reverse_time a (fst xy) k else ret (fst xy)) (fun x =>
  bind (if cl then lin_interval reverse_time (snd xy) k else ret (snd xy)) (fun y =>
  ret (x, y))).
(** saving, l.649-676 *)
Definition save (m : method) (c : bool) (a b : nat) (x : acc) : prog unit :=
  emit (if c && qltb 0%num (a_t x) then [WInt m a b (upper (a_I x)) (a_t x)] else []).
(** one integral, l.477-681; the state: _int_start and the two sums *)
Definition integral (o : options) (ce cl reverse_time : bool) (a : nat) (st : nat * (acc * acc)) (b : nat) : prog (nat * (acc * acc)) :=
  bind (loop (interval o ce cl reverse_time a) (krange reverse_time (fst st) b) (snd st)) (fun xy =>
  bind (save Expm ce a b (fst xy)) (fun _ =>
  bind (save Lin cl a b (snd xy)) (fun _ =>
  ret (b, xy)))).

(** ** [worker], l.340-498: from interval a to each of the intervals [sts]. The test of
    l.472-473 cannot succeed: an integral that was resumed with both methods has raised. *)
Definition acc0 : acc := mkAcc (fun _ _ => 0%num) ident 0%num.
Definition worker (o : options) (reverse_time : bool) (a : nat) (sts : list nat) : prog unit :=
  bind (if use_expm o then resume o Expm reverse_time a a sts acc0 else ret (false, (a, sts, acc0))) (fun r1 =>
  let '(all_expm, (from, sts1, x)) := r1 in
  bind (if use_lin o then resume o Lin reverse_time a from sts1 acc0 else ret (false, (from, sts1, acc0))) (fun r2 =>
  let '(all_lin, (from2, sts2, y)) := r2 in
  let ce := use_expm o && negb all_expm in
  let cl := use_lin o && negb all_lin in
  if ce || cl then bind (loop (integral o ce cl reverse_time a) sts2 (from2, (x, y))) (fun _ => ret tt)
  else ret tt)).
(** a task: where it starts in the grid, and the direction. [None]: IndexError *)
Definition task_stops (o : options) (inds : list nat) (t : nat * bool) : option (nat * list nat) :=
  match nth_error inds (fst t), stops (only_one o) (snd t) inds (fst t) with
  | Some a, Some sts => Some (a, sts)
  | _, _ => None
  end.
Definition run_task (o : options) (inds : list nat) (t : nat * bool) : prog unit :=
  match task_stops o inds t with
  | Some (a, sts) => worker o (snd t) a sts
  | None => fail
  end.
End Worker.

(** ** [main], l.704-726 *)
Inductive selection := FromStart | FromFinish | StartAndFinish | EveryStart.
Inductive directions := Forward | Backward | Both.
Definition rev_time_list (dir : directions) : list bool := match dir with Forward => [false] | Backward => [true] | Both => [false; true] end.
Definition tasks (sel : selection) (dir : directions) (inds : list nat) : list (nat * bool) :=
  match sel with
  | FromStart => [(0, false)]
  | FromFinish => [(length inds - 1, true)]
  | StartAndFinish => map (fun r : bool => (if r then length inds - 1 else 0, r)) (rev_time_list dir)
  | EveryStart => flat_map (fun r : bool => map (fun i => (i, r)) (if r then seq 1 (length inds - 1) else seq 0 (length inds - 1))) (rev_time_list dir)
  end.
