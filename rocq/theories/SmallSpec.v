(** Vocabulary of the statements about matrices given by their used rows and columns. *)
From Verif Require Import Base LouvainModel SparseModel SparseSpec TransModel TransSpec SmallModel.

(** what is assumed of [connected_components] *)
Definition components_ok (comps : components) : Prop :=
  forall m A, component_labels m A (fst (comps m A)) (snd (comps m A)).

(** ** Rows *)
(** entry of a row vector given by stored entries, which add up *)
Definition entry (p : list (nat * num)) (i : nat) : num := sumL (fun e => if fst e =? i then snd e else 0%num) p.
(** the product of a row vector with itself, or its upper triangle *)
Definition outer_product (p : list (nat * num)) (triu : bool) : mat := fun i j =>
  if triu then (if i <=? j then (entry p i * entry p j)%num else 0%num) else (entry p i * entry p j)%num.
(** number of entries that are not zero *)
Definition nonzero_entries (p : list (nat * num)) : nat := length (filter (fun e => negb (qeqb (snd e) 0%num)) p).

(** ** Assignments *)
(** each of min(ns, nt) sources is given a target of its own *)
Definition assignment (ns nt : nat) (l : list (nat * nat)) : Prop :=
  length l = Nat.min ns nt /\ NoDup (map fst l) /\ NoDup (map snd l) /\ forall st, In st l -> fst st < ns /\ snd st < nt.
Definition flow_of (R : mat) (l : list (nat * nat)) : num := sumL (fun st => R (fst st) (snd st)) l.
(** what is assumed of [linear_sum_assignment]: a cheapest assignment, as two lists *)
Definition cheapest (lsa : nat -> nat -> mat -> list nat * list nat) : Prop :=
  forall ns nt C, length (fst (lsa ns nt C)) = length (snd (lsa ns nt C)) /\
    assignment ns nt (combine (fst (lsa ns nt C)) (snd (lsa ns nt C))) /\
    forall l, assignment ns nt l -> (flow_of C (combine (fst (lsa ns nt C)) (snd (lsa ns nt C))) <= flow_of C l)%num.

(** ** Stationary matrices *)
(** number of non-zero entries of a row *)
Definition row_nonzeros (n : nat) (T : mat) (i : nat) : nat := length (filter (fun j => negb (qeqb (T i j) 0%num)) (seq 0 n)).
(** each component has its own distribution, proportional to the non-zero entries of the rows *)
Definition stationary_at (n : nat) (T : mat) (lab : nat -> nat) : mat := fun i j =>
  if lab i =? lab j then (qn (row_nonzeros n T j) / sumN n (fun k => if lab k =? lab i then qn (row_nonzeros n T k) else 0))%num else 0%num.
(** from the identity at time 0 to T at time 1 to the stationary matrix at time t_s *)
Definition interpolated (t t_s : num) (T Pi : mat) : mat := fun i j =>
  if qleb t 1%num then ((1 - t) * (if i =? j then 1 else 0) + t * T i j)%num
  else if qltb t t_s then (((t_s - t) * T i j + (t - 1) * Pi i j) / (t_s - 1))%num
  else Pi i j.
