(** Vocabulary of the statements about slices of time. *)
From Verif Require Import Base LouvainModel EventsModel EventsSpec TransModel TransSpec SliceModel.

(** the bounds t0, t0 + len, t0 + 2 len, ... *)
Definition regular (t0 len : num) (bounds : list num) : Prop :=
  bounds <> [] /\ forall i, i < length bounds -> nth i bounds 0%num = (t0 + qn i * len)%num.
(** bounds in increasing order, possibly equal *)
Definition increasing (bounds : list num) : Prop := StronglySorted Qcle bounds.
(** equal lists of n x n matrices *)
Definition same_matrices (n : nat) (l l' : list mat) : Prop :=
  length l = length l' /\ forall k, k < length l -> eqm n (nth k l ident) (nth k l' ident).
(** each slice starts with the step after the last one of the slice before *)
Fixpoint contiguous (k : nat) (l : list (nat * nat * list mat)) (k' : nat) : Prop :=
  match l with
  | [] => k = k'
  | (ka, kb, _) :: r => ka = k /\ ka <= kb /\ contiguous kb r k'
  end.
(** the matrix exponential depends on the entries of the matrix only *)
Definition by_entries (n : nat) (E : num -> mat -> mat) : Prop :=
  forall x L L', eqm n L L' -> eqm n (E x L) (E x L').
(** the files of a slice that the options ask for *)
Definition asked (o : options) (f : fname) : Prop :=
  match f with
  | Adjacency => o_static o = true
  | Inter lin tau => o_inter o = true /\ (if lin then o_lin o else o_expm o) = true /\ In tau (o_taus o)
  | Trans lin _ tau => o_trans o = true /\ (if lin then o_lin o else o_expm o) = true /\ In tau (o_taus o)
  end.
