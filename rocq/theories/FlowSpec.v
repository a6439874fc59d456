(** Vocabulary of the statements about flow integrals. *)
From Verif Require Import Base LouvainModel EventsModel EventsSpec TransModel TransSpec FlowModel.

Definition distribution (n : nat) (p : nat -> num) : Prop :=
  (forall i, i < n -> (0 <= p i)%num) /\ sumN n p = 1%num.
Definition increasing (ts : list num) : Prop :=
  forall a b, a < b -> b < length ts -> (nth a ts 0 < nth b ts 0)%num.

(** ** Covariances *)
Definition symmetric (n : nat) (A : mat) : Prop := forall i j, i < n -> j < n -> A i j = A j i.
Definition positive_semidefinite (n : nat) (A : mat) : Prop :=
  forall x : nat -> num, (0 <= sumN n (fun i => sumN n (fun j => x i * A i j * x j)))%num.
Definition zero_rows (n : nat) (A : mat) : Prop := forall i, i < n -> sumN n (A i) = 0%num.
Definition covariance_like (n : nat) (A : mat) : Prop :=
  symmetric n A /\ positive_semidefinite n A /\ zero_rows n A.

(** A walker starts at node i with probability p i and moves by T: probability to be at k *)
Definition at_end (n : nat) (p : nat -> num) (T : mat) (k : nat) : num := sumN n (fun i => (p i * T i k)%num).
(** Two walkers ending at the same node k, which has probability [at_end n p T k]: probability
    that they started at i and j, minus the probability for independent walkers *)
Definition flow_cov (n : nat) (p : nat -> num) (T : mat) : mat := fun i j =>
  (sumN n (fun k => if qeqb (at_end n p T k) 0 then 0 else p i * T i k * (p j * T j k) / at_end n p T k) - p i * p j)%num.

(** ** Averages *)
(** length of the k-th step, in either direction of time *)
Definition gap (ts : list num) (k : nat) : num := qabs (nth (S k) ts 0 - nth k ts 0)%num.
(** average, over the first m steps, of the covariances of the transitions [T 0], [T 1], ...
    from the start to the end of the step *)
Definition time_average (n : nat) (p : nat -> num) (T : nat -> mat) (ts : list num) (m : nat) : mat := fun i j =>
  (sumN m (fun k => gap ts k * flow_cov n p (T k) i j) / qabs (nth m ts 0 - nth 0 ts 0))%num.
(** transition over the first k+1 steps *)
Definition transition (n : nat) (inter : list mat) (k : nat) : mat := chain n (firstn (S k) inter).

(** ** Arguments *)
Definition the_times (time_list : option (list num)) (K : nat) : list num :=
  match time_list with Some ts => ts | None => map qn (seq 0 (S K)) end.
Definition the_distribution (n : nat) (p1 : option (nat -> num)) : nat -> num :=
  match p1 with Some p => p | None => fun _ => (1 / qn n)%num end.
Definition distribution_ok (n : nat) (p1 : option (nat -> num)) : Prop :=
  match p1 with Some p => distribution n p | None => 0 < n end.
Definition times_ok (time_list : option (list num)) : Prop :=
  match time_list with Some ts => increasing ts | None => True end.
(** nothing is rounded *)
Definition exact (kd : kind) (rtol : option num) : Prop := kd = Dense \/ rtol = None \/ rtol = Some 0%num.

(** latest time not after [t] in the direction of the flow, or the first one *)
Definition flows_before (reverse_time : bool) (a b : num) : Prop := if reverse_time then (b <= a)%num else (a <= b)%num.
Definition last_before (reverse_time : bool) (ts : list num) (t s : num) : Prop :=
  In s ts /\ (flows_before reverse_time s t \/ s = nth 0 ts 0%num) /\ forall u, In u ts -> flows_before reverse_time u t -> flows_before reverse_time u s.

(** ** What the constructor is given: either the transitions from the start, or those of the steps *)
Definition given (TL TI : option (list mat)) : list mat :=
  match TL, TI with Some l, _ => l | None, Some l => l | None, None => [] end.
Definition all_stochastic (n : nat) (TL TI : option (list mat)) : Prop :=
  forall B, In B (given TL TI) -> stochastic n B.
(** transition from the start of the flow over k+1 steps *)
Definition flow_transition (n : nat) (TL TI : option (list mat)) (reverse_time : bool) (k : nat) : mat :=
  match TL with Some l => nth k l ident | None => transition n (in_order reverse_time (given TL TI)) k end.
Definition flow_times (TL TI : option (list mat)) (time_list : option (list num)) (reverse_time : bool) : list num :=
  let ts := the_times time_list (length (given TL TI)) in if reverse_time then rev ts else ts.
(** average over the first m steps of the flow *)
Definition flow_average (n : nat) (TL TI : option (list mat)) (p1 : option (nat -> num)) (time_list : option (list num)) (reverse_time : bool) (m : nat) : mat :=
  time_average n (the_distribution n p1) (flow_transition n TL TI reverse_time) (flow_times TL TI time_list reverse_time) m.
(** number of steps *)
Definition steps_in (TL TI : option (list mat)) (time_list : option (list num)) : nat :=
  min (length (given TL TI)) (length (the_times time_list (length (given TL TI))) - 1).
