(** Vocabulary of the statements about repeated searches and connected components. *)
From Coq Require Export Relations.
From Verif Require Import Base PartitionModel PartitionSpec LouvainModel LouvainSpec MultiModel FlowModel.

(** nodes connected by edges of T, whatever their directions *)
Definition linked (n : nat) (T : mat) : nat -> nat -> Prop :=
  clos_refl_sym_trans nat (fun i j => i < n /\ j < n /\ (0 < T i j)%num).

(** an object made by the constructor, for a transition matrix without zero rows *)
Definition made (c : dense) : Prop :=
  (exists p1 p2 T M thr, dense_init (d_n c) p1 p2 T M thr = Some c) /\ 0 < d_n c /\ has_out_flow (d_n c) (d_T c).
(** what a clustering object made with this seed finds; [None] if an exception is raised *)
Definition found (setord : list nat -> list nat) (rng : nat -> nat -> nat -> nat -> list nat) (c : dense)
    (thr : num) (n_meta n_sub seed : nat) (k : nat) (cl : list (list nat)) : Prop :=
  exists q, find_louvain setord (rng seed) (d_T c) (d_S c) thr n_meta n_sub (part_default (d_n c)) = LDone q k /\ cluster_list q = cl.

(** B is A without its entries smaller than the threshold *)
Definition small_removed (n : nat) (threshold : option num) (A B : mat) : Prop := forall i j, i < n -> j < n ->
  match threshold with
  | None => B i j = A i j
  | Some x => ((qabs (A i j) < x)%num -> B i j = 0%num) /\ ((x <= qabs (A i j))%num -> B i j = A i j)
  end.
