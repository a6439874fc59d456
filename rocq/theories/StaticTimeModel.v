(** The matrix S of [static_clustering] over the real numbers, for an undirected network and
    continuous time: /repo/src/flowstab/network_clustering.py l.2431-2442, l.2468, l.2478-2487 and l.2492
    (defaults of [discrete_time_rw], [linearized] and [directed]), with
    S = diag(p) T - outer(p, p) of the constructors.  [expm] is the exponential (ExpModel.v);
    density and walk are rational, as in StaticModel.v; rounding is left out. *)
From Coq Require Import Reals.
From Verif Require Import Base GapModel LouvainModel EventsModel TransModel StaticModel ExpModel.
Local Open Scope R_scope.

Definition static_real (n : nat) (eig : mat -> eigenpair) (A : mat) (t : R) (M : rmat) : Prop :=
  exists p F, stationary n eig false A = Some p /\
    expm n (scaled t (mminus ident (Tstat n A))) F /\
    M = fun i j => q2r (p i) * F i j - q2r (p i) * q2r (p j).
