(** The flow over a period of time: the matrices between events multiplied in order. *)
From Coq Require Import Reals.
From Verif Require Import Base LouvainModel GapModel ExpModel ExpSpec.
Local Open Scope R_scope.

(** from [T] on, over the times [ts] with the Laplacians [Ls] in between, as in
    [compute_transition_matrices], /repo/src/flowstab/temporal_network.py l.1583-1640 *)
Fixpoint multiplied (n : nat) (lamda : R) (T : rmat) (ts : list num) (Ls : list mat) (F : rmat) : Prop :=
  match ts, Ls with
  | [_], [] => same n F T
  | t :: (u :: _) as r, L :: Ls => exists G, inter_matrix n (q2r (u - t)%num * lamda) L G /\ multiplied n lamda (times_matrix n T G) r Ls F
  | _, _ => False
  end.
(** the times of a window *)
Definition between (ts : list num) (ka kb : nat) : list num := skipn ka (firstn (S kb) ts).
(** a boundary that is not given, or a time of both networks *)
Definition in_both (ts ts' : list num) (a : option num) : Prop :=
  match a with None => True | Some t => In t ts /\ In t ts' end.
