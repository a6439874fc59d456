(** Specification of the variation of information of several clusterings. *)
From Verif Require Import InfoModel.
From Verif Require Import Base InfoSpec.

(** the mean of [f] over [k] different pairs of the clusterings *)
Definition mean_of_pairs (k : nat) (cls : list (list (list nat))) (f : list (list nat) -> list (list nat) -> R) (v : R) : Prop :=
  exists ijs : list (nat * nat), length ijs = k /\ NoDup ijs /\ (forall i j, In (i, j) ijs -> i < j < length cls) /\
    v = (fold_right Rplus 0 (map (fun ij => f (nth (fst ij) cls []) (nth (snd ij) cls [])) ijs) / INR k)%R.
(** variation of information divided by the largest one between clusterings of N nodes *)
Definition relative_vi (N : nat) (P Q : list (list nat)) : R := (double_sum P Q / n_bits N)%R.
Definition all_same (cls : list (list (list nat))) : Prop := forall P Q, In P cls -> In Q cls -> same_clustering P Q.
(** the numbers drawn by np.random.choice(range(m), k, replace=False) *)
Definition drawn (idx : list nat) (k m : nat) : Prop := NoDup idx /\ length idx = k /\ forall i, In i idx -> i < m.
(** the number of pairs used: all of [m] runs, or what is asked for *)
Definition pairs_used (asked : option nat) (m : nat) : nat := let all := m * (m - 1) / 2 in match asked with None => all | Some k => Nat.min k all end.
(** a report of the variation of information of clusterings of N nodes *)
Definition reports (asked : option nat) (N : nat) (cls : list (list (list nat))) (v : R) : Prop :=
  mean_of_pairs (pairs_used asked (length cls)) cls (relative_vi N) v /\ (0 <= v <= 1)%R /\
  (asked = None -> v = 0%R <-> all_same cls).
