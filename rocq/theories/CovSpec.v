(** Vocabulary of the statements about saved integrals. *)
From Verif Require Import Base LouvainModel SparseModel EventsModel EventsSpec TransModel TransSpec FlowModel FlowSpec CovModel.

(** ** The flow *)
(** The matrices of an interval that was saved by [save_inter_T]: one per step between
    consecutive times; an interval without steps is saved with one time. *)
Definition slice_ok (n : nat) (s : slice) : Prop :=
  (length (s_times s) = S (length (s_inter s)) \/ length (s_times s) = 1) /\ increasing (s_times s) /\
  s_start s = nth 0 (s_times s) 0%num /\ s_stop s = nth (length (s_times s) - 1) (s_times s) 0%num /\
  (forall A, In A (s_inter s) -> stochastic n A).
(** the steps of an interval, with their durations, in the order of the flow *)
Definition steps (back : bool) (s : option slice) : list (mat * num) :=
  match s with
  | None => []
  | Some s => let l := combine (s_inter s) (diffs (s_times s)) in if back then rev l else l
  end.
(** the intervals between the beginning of interval a and that of interval b, in the order of
    the flow *)
Definition crossed (a b : nat) : list nat := if a <=? b then seq a (b - a) else rev (seq b (a - b)).
Definition walk (data : nat -> option slice) (a b : nat) : list (mat * num) :=
  flat_map (fun k => steps (b <? a) (data k)) (crossed a b).
Definition duration (w : list (mat * num)) : num := sumL snd w.
(** the transitions from the start, after one step, two steps, ... *)
Definition transitions (n : nat) (w : list (mat * num)) : list mat :=
  map (fun k => chain n (map fst (firstn (S k) w))) (seq 0 (length w)).
(** average over the duration of the walk of the covariances of the transitions [Ts], for
    walkers that start anywhere with the same probability *)
Definition average (n : nat) (Ts : list mat) (w : list (mat * num)) : mat := fun i j =>
  (sumN (length w) (fun k => snd (nth k w (ident, 0)) * flow_cov n (fun _ => 1 / qn n) (nth k Ts ident) i j) / duration w)%num.

(** ** Files *)
(** The matrix of a file is an upper triangle: the symmetric matrix it stands for, with the
    probabilities of the nodes and without the product of the probabilities. *)
Definition symmetrised (A : mat) : mat := fun i j => if i <=? j then A i j else A j i.
Definition integral_of (n : nat) (A : mat) (t : num) : mat := fun i j =>
  (1 / qn n * symmetrised A i j * (1 / qn n) / t - 1 / qn n * (1 / qn n))%num.
(** the file holds the average, over the flow from a to b, of the covariances *)
Definition holds_average (n : nat) (data : nat -> option slice) (a b : nat) (A : mat) (t : num) : Prop :=
  t = duration (walk data a b) /\ (0 < t)%num /\ (forall i j, j < i -> A i j = 0%num) /\
  eqm n (integral_of n A t) (average n (transitions n (walk data a b)) (walk data a b)).
(** the same when the transitions were rounded: for some stochastic matrices *)
Definition holds_rounded (n : nat) (data : nat -> option slice) (a b : nat) (A : mat) (t : num) : Prop :=
  t = duration (walk data a b) /\ (0 < t)%num /\ (forall i j, j < i -> A i j = 0%num) /\
  exists Ts, length Ts = length (walk data a b) /\ (forall T, In T Ts -> stochastic n T) /\
    eqm n (integral_of n A t) (average n Ts (walk data a b)).

(** ** Runs *)
Definition empty_disk : disk := mkDisk (fun _ _ _ => None) (fun _ _ => None).
(** The directory after any number of runs of tasks, each stopped anywhere (or not) between
    two writes. From one run to the next the options may change. *)
Inductive history (n : nat) (tol : num) (inter : method -> nat -> option slice) (trans : method -> bool -> nat -> option (mat * num))
    (inds : list nat) : disk -> Prop :=
| history_start : history n tol inter trans inds empty_disk
| history_run d sel dir t o mkl q : history n tol inter trans inds d -> In t (tasks sel dir inds) ->
    history n tol inter trans inds (puts d (firstn q (fst (run_task n tol None mkl inter trans o inds t d)))).
Definition uses (o : options) (m : method) : bool := match m with Expm => use_expm o | Lin => use_lin o end.
(** the files of the intervals up to the last point of the grid *)
Definition before_end (inds : list nat) (k : nat) : Prop := exists b, In b inds /\ k < b.
Definition inter_there (inter : method -> nat -> option slice) (o : options) (inds : list nat) : Prop :=
  forall m k, uses o m = true -> before_end inds k -> inter m k <> None.
Definition trans_there (trans : method -> bool -> nat -> option (mat * num)) (o : options) (inds : list nat) (back : bool) : Prop :=
  forall m k, uses o m = true -> before_end inds k -> trans m back k <> None.
(** what is saved with the option --save_slice_trans: the product of the matrices of the
    interval, in the order of the flow, and the limits of the interval *)
Definition trans_ok (n : nat) (inter : method -> nat -> option slice) (trans : method -> bool -> nat -> option (mat * num)) : Prop :=
  forall m back k A t, trans m back k = Some (A, t) ->
    exists s, inter m k = Some s /\ eqm n A (chain n (map fst (steps back (Some s)))) /\ t = qabs (s_stop s - s_start s)%num.
Definition all_slices_ok (n : nat) (inter : method -> nat -> option slice) : Prop :=
  forall m k s, inter m k = Some s -> slice_ok n s.
(** a grid *)
Definition increasing_nat (l : list nat) : Prop := forall i j, i < j -> j < length l -> nth i l 0 < nth j l 0.
(** the task has written, now or before, the integrals to all its stops that last *)
Definition complete (data : method -> nat -> option slice) (o : options) (a : nat) (sts : list nat) (d : disk) : Prop :=
  forall m b, uses o m = true -> In b sts -> (0 < duration (walk (data m) a b))%num -> d_int d m a b <> None.

(** ** Tasks *)
(** the pairs of intervals between which the flow is integrated *)
Definition integrated (o : options) (inds : list nat) (l : list (nat * bool)) : list (nat * nat) :=
  flat_map (fun t => match task_stops o inds t with Some (a, sts) => map (pair a) sts | None => [] end) l.
Definition adjacent (inds : list nat) (a b : nat) : Prop := forall c, In c inds -> ~ (a < c < b \/ b < c < a).
Definition allowed (dir : directions) (a b : nat) : Prop :=
  match dir with Forward => a < b | Backward => b < a | Both => a <> b end.
(** what the options ask for *)
Definition wanted (o : options) (sel : selection) (dir : directions) (inds : list nat) (a b : nat) : Prop :=
  In a inds /\ In b inds /\ (only_one o = true -> adjacent inds a b) /\
  match sel with
  | FromStart => a = nth 0 inds 0 /\ a <> b
  | FromFinish => a = nth (length inds - 1) inds 0 /\ a <> b
  | StartAndFinish => allowed dir a b /\ ((a = nth 0 inds 0 /\ a < b) \/ (a = nth (length inds - 1) inds 0 /\ b < a))
  | EveryStart => allowed dir a b
  end.
