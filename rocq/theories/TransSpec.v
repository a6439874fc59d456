(** Vocabulary of the statements about transition matrices. *)
From Verif Require Import Base LouvainModel SparseModel SparseSpec EventsModel EventsSpec TransModel.

(** equal as n x n matrices *)
Definition eqm (n : nat) (A B : mat) : Prop := forall i j, i < n -> j < n -> A i j = B i j.
(** rows are probability distributions *)
Definition stochastic (n : nat) (T : mat) : Prop :=
  (forall i j, i < n -> j < n -> (0 <= T i j)%num) /\ (forall i, i < n -> sumN n (T i) = 1%num).
(** A1 (A2 (A3 ... )) *)
Definition chain (n : nat) (l : list mat) : mat := fold_right (mmul n) ident l.

(** What is assumed of the matrix exponential: exp(-x L) is stochastic for x >= 0 when I - L
    is, and exp(0) = I. *)
Definition expm_ok (n : nat) (E : num -> mat -> mat) : Prop :=
  (forall x L, (0 <= x)%num -> walk_like n L -> stochastic n (E x L)) /\
  (forall x L, eqm n L (fun _ _ => 0%num) -> eqm n (E x L) ident).
(** What is assumed of [set_to_zeroes]: a deleted entry is at most tol times the magnitude of
    some entry. *)
Definition zeroing (n : nat) (Z : num -> mat -> mat) : Prop :=
  forall tol A, (0 <= tol)%num -> forall i j, i < n -> j < n ->
    Z tol A i j = A i j \/
    (Z tol A i j = 0%num /\ exists a b, a < n /\ b < n /\ (A i j <= tol * qabs (A a b))%num).

(** ** Histories of calls *)
Inductive call :=
| CLap (t_start t_stop : option num)
| CInter (lamda t_start t_stop : option num) (fix_tau_k use_sparse_stoch : bool)
| CTrans (lamda : num) (save_intermediate reverse_time force_csr : bool) (tol : option num)
| CLinInter (lamda t_start t_stop : option num) (t_s : num) (fix_tau_k use_sparse_stoch : bool)
| CLinTrans (lamda t_s : num) (save_intermediate reverse_time : bool).
Section Run.
Context (n : nat) (ts : list num) (lapf : option num -> option num -> option (nat * nat * list mat))
  (E : num -> mat -> mat) (Z : num -> mat -> mat) (P : mat -> mat).
Definition do_call (c : call) (st : tn) : option tn :=
  match c with
  | CLap a b => compute_lap lapf a b st
  | CInter x a b f s => compute_inter n ts lapf E x a b f s st
  | CTrans x s r f t => compute_trans n Z x s r f t st
  | CLinInter x a b t f s => compute_lin_inter ts lapf P x a b t f s st
  | CLinTrans x t s r => compute_lin_trans n Z x t s r st
  end.
(** the state after calls none of which raised an exception *)
Fixpoint run (h : list call) (st : tn) : option tn :=
  match h with
  | [] => Some st
  | c :: r => match do_call c st with Some st' => run r st' | None => None end
  end.
End Run.
(** arguments with which the Laplacians held by the network were last computed *)
Definition window_after (w : option (option num * option num)) (c : call) : option (option num * option num) :=
  match c, w with
  | CLap a b, _ => Some (a, b)
  | CInter _ a b _ _, None => Some (a, b)
  | CLinInter _ a b _ _ _, None => Some (a, b)
  | _, _ => w
  end.
Definition window_of (h : list call) : option (option num * option num) := fold_left window_after h None.
Definition without_tol (h : list call) : Prop := forall x s r f t, In (CTrans x s r f t) h -> t = None.

(** ** Graphs *)
(** connected by edges, disregarding their direction, within nodes 0..n-1 *)
Inductive linked (n : nat) (adj : nat -> nat -> Prop) : nat -> nat -> Prop :=
| linked_refl i : i < n -> linked n adj i i
| linked_step i j k : linked n adj i j -> k < n -> adj j k \/ adj k j -> linked n adj i k.
(** labels of the connected components of a matrix, as given by [connected_components] *)
Definition component_labels (n : nat) (A : mat) (n_comp : nat) (lab : nat -> nat) : Prop :=
  (forall i, i < n -> lab i < n_comp) /\
  (forall i j, i < n -> j < n -> (lab i = lab j <-> linked n (fun a b => A a b <> 0%num) i j)).
(** any labels such that entries are inside classes *)
Definition closed_labels (n : nat) (A : mat) (n_comp : nat) (lab : nat -> nat) : Prop :=
  (forall i, i < n -> lab i < n_comp) /\
  (forall i j, i < n -> j < n -> A i j <> 0%num -> lab i = lab j).

(** ** Power series *)
(** c 0 I + c 1 A + ... + c K A^K, with the powers defined from the other side *)
Fixpoint power (n : nat) (A : mat) (k : nat) : mat := match k with 0 => ident | S k => mmul n (power n A k) A end.
Definition poly (n : nat) (c : nat -> num) (K : nat) (A : mat) : mat := fun i j =>
  sumN (S K) (fun k => (c k * power n A k i j)%num).
(** [F] and [G v] compute this series on matrices of every size *)
Definition computes_poly (c : nat -> num) (K : nat) (F : nat -> mat -> mat) : Prop :=
  forall m A, eqm m (F m A) (poly m c K A).
Definition applies_poly (c : nat -> num) (K : nat) (G : nat -> mat -> (nat -> num) -> nat -> num) : Prop :=
  forall m A v a, a < m -> G m A v a = sumN m (fun b => (poly m c K A a b * v b)%num).

(** ** Laplacians of a window *)
(** for every window, one Laplacian of a random walk per step between consecutive times *)
Definition laplacians_ok (n : nat) (ts : list num) (lapf : option num -> option num -> option (nat * nat * list mat)) : Prop :=
  forall a b, exists ka kb Ls, lapf a b = Some (ka, kb, Ls) /\ kb < length ts /\ length Ls = kb - ka /\
    forall k, k < kb - ka -> walk_like n (nth k Ls ident).
(** length of the k-th step of the window, or 1 *)
Definition step_length (ts : list num) (fix_tau_k : bool) (ka k : nat) : num :=
  if fix_tau_k then 1%num else (nth (S (ka + k)) ts 0 - nth (ka + k) ts 0)%num.
(** the matrices [l] are those of the steps ka..kb-1, given by [f]; the identity when there
    is no step *)
Definition one_per_step (n ka kb : nat) (f : nat -> mat) (l : list mat) : Prop :=
  (kb <= ka -> Forall2 (eqm n) l [ident]) /\
  (ka < kb -> length l = kb - ka /\ forall k, k < kb - ka -> eqm n (nth k l ident) (f k)).
(** the product [v] asked for, of the factors [l] *)
Definition product_of (n : nat) (save_intermediate : bool) (l : list mat) (v : tval) : Prop :=
  match v with
  | Many out => save_intermediate = true /\ length out = length l /\
      forall k, k < length l -> eqm n (nth k out ident) (chain n (firstn (S k) l))
  | One A => save_intermediate = false /\ eqm n A (chain n l)
  end.
Definition in_order (reverse_time : bool) (l : list mat) : list mat := if reverse_time then rev l else l.
(** matrices among the values *)
Definition held (v : tval) (A : mat) : Prop := match v with Many out => In A out | One B => A = B end.
