(** Vocabulary of the statements about [static_clustering]. *)
From Verif Require Import Base PartitionModel LouvainModel LouvainSpec EventsModel EventsSpec TransModel TransSpec StaticModel.

(** a network: non-negative weights, not all zero; undirected if they are symmetric *)
Definition network (n : nat) (A : mat) : Prop :=
  (forall i j, i < n -> j < n -> (0 <= A i j)%num) /\ exists i j, i < n /\ j < n /\ A i j <> 0%num.
Definition undirected (n : nat) (A : mat) : Prop := forall i j, i < n -> j < n -> A i j = A j i.
(** sum of the weights of node i, and of all nodes *)
Definition strength (n : nat) (A : mat) (i : nat) : num := sumN n (fun j => A i j).
Definition total_strength (n : nat) (A : mat) : num := sumN n (strength n A).
(** the random walk along the edges: it stays where there is no edge to follow *)
Definition walks (n : nat) (A W : mat) : Prop :=
  forall i j, i < n -> j < n ->
    (strength n A i <> 0%num -> (strength n A i * W i j = A i j)%num) /\
    (strength n A i = 0%num -> W i j = if i =? j then 1%num else 0%num).

Definition density (n : nat) (p : nat -> num) : Prop := (forall i, i < n -> (0 <= p i)%num) /\ sumN n p = 1%num.
(** one step of T does not change the density *)
Definition invariant (n : nat) (p : nat -> num) (T : mat) : Prop := forall j, j < n -> sumN n (fun i => (p i * T i j)%num) = p j.
(** as many walkers go from i to j as from j to i *)
Definition balanced (n : nat) (p : nat -> num) (T : mat) : Prop := forall i j, i < n -> j < n -> (p i * T i j = p j * T j i)%num.
Definition rows_to_one (n : nat) (T : mat) : Prop := forall i, i < n -> sumN n (fun j => T i j) = 1%num.

(** What is assumed of the exponential exp(-x L), for x >= 0 and I - L stochastic: it is stochastic,
    keeps the invariant and the balanced densities, and is positive along edges for x > 0.  These hold of
    the exponential of real matrices. *)
Definition exponential (n : nat) (E : num -> mat -> mat) : Prop :=
  forall x L, (0 <= x)%num -> stochastic n (mminus ident L) ->
    stochastic n (E x L) /\
    (forall p, invariant n p (mminus ident L) -> invariant n p (E x L)) /\
    (forall p, balanced n p (mminus ident L) -> balanced n p (E x L)) /\
    (forall i j, i < n -> j < n -> (0 < x)%num -> (0 < mminus ident L i j)%num -> (0 < E x L i j)%num).
(** modes in which [transition] is a probability: not the linearised one beyond time 1 *)
Definition time_ok (discrete_time_rw linearized : bool) (t : time) : Prop :=
  (0 <= time_value t)%num /\ (linearized = true -> (time_value t <= 1)%num \/ discrete_time_rw = true /\ exists k, t = PyInt k).

(** ** Modularity *)
(** weight inside a cluster (every edge counted in both directions), and strength of a cluster *)
Definition weight_inside (A : mat) (c : list nat) : num := sumL (fun i => sumL (fun j => A i j) c) c.
Definition cluster_strength (n : nat) (A : mat) (c : list nat) : num := sumL (strength n A) c.
Definition modularity (n : nat) (A : mat) (p : partition) : num :=
  sumL (fun c => let m2 := total_strength n A in
    weight_inside A c / m2 - (cluster_strength n A c / m2) * (cluster_strength n A c / m2))%num (cluster_list p).

(** ** Directed networks *)
(** every node can be reached from every node along edges *)
Inductive path (n : nat) (A : mat) : nat -> nat -> Prop :=
| path_nil i : i < n -> path n A i i
| path_cons i j k : i < n -> j < n -> A i j <> 0%num -> path n A j k -> path n A i k.
Definition strongly_connected (n : nat) (A : mat) : Prop := forall i j, i < n -> j < n -> path n A i j.
(** M v = w v for a vector that is not zero *)
Definition is_eigenpair (n : nat) (M : mat) (e : eigenpair) : Prop :=
  (exists i, i < n /\ (v_re e i <> 0%num \/ v_im e i <> 0%num)) /\
  forall i, i < n ->
    sumN n (fun j => M i j * v_re e j)%num = (w_re e * v_re e i - w_im e * v_im e i)%num /\
    sumN n (fun j => M i j * v_im e j)%num = (w_re e * v_im e i + w_im e * v_re e i)%num.
(** an eigenpair whose eigenvalue has modulus 1, the largest one for a stochastic matrix; its vector
    is real if the eigenvalue is *)
Definition largest (n : nat) (M : mat) (e : eigenpair) : Prop :=
  is_eigenpair n M e /\ (w_re e * w_re e + w_im e * w_im e = 1)%num /\ (w_im e = 0%num -> forall i, v_im e i = 0%num).
(** [eig] applied to the transposed transition matrix of the walk *)
Definition finds_largest (n : nat) (A : mat) (eig : mat -> eigenpair) : Prop :=
  forall W, walks n A W -> largest n (transpose W) (eig (transpose W)).
Definition finds_one (n : nat) (A : mat) (eig : mat -> eigenpair) : Prop :=
  forall W, walks n A W -> w_re (eig (transpose W)) = 1%num.
