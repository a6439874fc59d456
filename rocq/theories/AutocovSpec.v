(** What is assumed of the input of a SparseAutocovMat, and the matrices it stands for. *)
From Verif Require Import Base SparseModel SparseSpec AutocovModel.

(** entries of PT are symmetric if the caller says so *)
Definition honest_symmetry (n : nat) (PT : csr) (sym : bool) : Prop :=
  sym = true -> forall i j, i < n -> j < n -> value PT i j = value PT j i.

(** [A] is what the constructor returns for a well-formed PT of [n] rows *)
Definition built (n : nat) (PT : csr) (p : probs) (sym : bool) (A : autocov) : Prop :=
  csr_ok n PT /\ honest_symmetry n PT sym /\ ac_init PT p sym = Some A.

(** sum of a matrix over a list of rows and a list of columns *)
Definition sum_over (S : nat -> nat -> num) (rows cols : list nat) : num :=
  sumL (fun i => sumL (fun j => S i j) cols) rows.

(** an index list: in range, each index once *)
Definition index_list (n : nat) (l : list nat) : Prop := NoDup l /\ forall i, In i l -> i < n.

(** the gain of adding node [k] to the nodes [idx], and of removing it from them: the
    change of the sum of S over the cluster *)
Definition gain_in (S : nat -> nat -> num) (k : nat) (idx : list nat) : num :=
  (sum_over S (k :: idx) (k :: idx) - sum_over S idx idx)%num.
Definition gain_out (S : nat -> nat -> num) (k : nat) (idx : list nat) : num :=
  (sum_over S (rem k idx) (rem k idx) - sum_over S idx idx)%num.

(** p1 and p2 sum to one; scalars stand for the uniform distribution *)
Definition normalised_probs (n : nat) (p : probs) : Prop :=
  match p with
  | PScal p1 p2 => p1 = (1 / qn n)%num /\ p2 = (1 / qn n)%num
  | PVec p1 p2 => sumL (fun x => x) p1 = 1%num /\ sumL (fun x => x) p2 = 1%num
  end.
(** vectors p1 and p2 as functions *)
Definition p1_at (p : probs) (i : nat) : num := match p with PScal p1 _ => p1 | PVec p1 _ => nth i p1 0%num end.
Definition p2_at (p : probs) (j : nat) : num := match p with PScal _ p2 => p2 | PVec _ p2 => nth j p2 0%num end.

(** no zero or negative element is stored *)
Definition positive_entries (M : csr) : Prop := forall i e, In e (row_entries M i) -> (0 < snd e)%num.

(** a transition matrix, and a probability vector *)
Definition transition (n : nat) (T : csr) : Prop :=
  csr_ok n T /\ (forall i j, i < n -> j < n -> (0 <= value T i j)%num) /\
  (forall i, i < n -> sumN n (value T i) = 1%num).
Definition distribution (n : nat) (q : list num) : Prop :=
  length q = n /\ (forall i, i < n -> (0 <= nth i q 0)%num) /\ sumN n (fun i => nth i q 0%num) = 1%num.
(** the distribution after one step *)
Definition pushed (n : nat) (T : csr) (q : list num) (k : nat) : num :=
  sumN n (fun i => (nth i q 0 * value T i k)%num).
(** what the optional arguments p1 and p2 stand for *)
Definition means_p1 (n : nat) (p1 : option (list num)) (q : list num) : Prop :=
  length q = n /\
  match p1 with Some v => q = v | None => forall i, i < n -> nth i q 0%num = (1 / qn n)%num end.
Definition means_p2 (n : nat) (T : csr) (q1 : list num) (p2 : option (list num)) (q : list num) : Prop :=
  length q = n /\
  match p2 with Some v => q = v | None => forall j, j < n -> nth j q 0%num = pushed n T q1 j end.
(** diag(p) T diag(1/p') T^t diag(p) - p^t p where p' = p T: states k that are never reached
    contribute nothing *)
Definition forward_cov (n : nat) (T : csr) (q : list num) (i j : nat) : num :=
  (sumN n (fun k => if qeqb (pushed n T q k) 0%num then 0%num
                    else (nth i q 0 * value T i k * value T j k * nth j q 0 / pushed n T q k)%num)
   - nth i q 0 * nth j q 0)%num.
