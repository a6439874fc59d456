(** What CSR arrays and SparseStochMat objects mean. *)
From Verif Require Import Base SparseModel.

(** Well-formed square CSR arrays of [n] rows (what scipy's check_format and prune
    establish, and column numbers in range); any order and repetition of columns inside a
    row is allowed.  [value M i j] is the matrix entry. *)
Definition csr_ok (n : nat) (M : csr) : Prop :=
  length (c_ptr M) = S n /\ nth 0 (c_ptr M) 0 = 0 /\
  (forall i, i < n -> nth i (c_ptr M) 0 <= nth (S i) (c_ptr M) 0) /\
  nth n (c_ptr M) 0 = length (c_data M) /\
  length (c_idx M) = length (c_data M) /\
  (forall j, In j (c_idx M) -> j < n).

(** A SparseStochMat: stored indices sorted, without repetition and in range. *)
Definition ssm_ok (A : ssm) : Prop :=
  csr_ok (length (s_nz A)) (s_small A) /\ StronglySorted lt (s_nz A) /\
  (forall i, In i (s_nz A) -> i < s_size A).

(** the full matrix of [A] exists, is a matrix of the size of [A], and has entries [f] *)
Definition full_is (A : ssm) (f : nat -> nat -> num) : Prop :=
  exists F, to_full_mat A = Some F /\ csr_ok (s_size A) F /\
    forall i j, i < s_size A -> j < s_size A -> value F i j = f i j.
(** entry of the full matrix *)
Definition full (A : ssm) (i j : nat) : num :=
  match to_full_mat A with Some F => value F i j | None => 0%num end.

(** What is assumed of scipy on square matrices of the same size. *)
Definition scipy_ok (sp : scipy) : Prop :=
  forall n M, csr_ok n M ->
    (forall d, csr_ok n (add_eye sp M d) /\
       forall i j, i < n -> j < n -> value (add_eye sp M d) i j = (value M i j + (if i =? j then d else 0))%num) /\
    (csr_ok n (transp sp M) /\ forall i j, i < n -> j < n -> value (transp sp M) i j = value M j i) /\
    (forall N, csr_ok n N -> csr_ok n (matmul sp M N) /\
       forall i j, i < n -> j < n ->
         value (matmul sp M N) i j = sumN n (fun k => (value M i k * value N k j)%num)).

(** sum of the stored values of a row *)
Definition stored_sum (M : csr) (i : nat) : num := sumL snd (row_entries M i).
(** no column is stored twice in a row *)
Definition no_repetition (M : csr) : Prop := forall i, NoDup (map fst (row_entries M i)).

(** total scattered to a position *)
Definition scattered (l : list (nat * num)) (p : nat) : num :=
  sumL (fun e => if fst e =? p then snd e else 0%num) l.

(** A computation succeeds with a well-formed SparseStochMat of size [n] whose full matrix
    has the entries [f]. *)
Definition represents (o : option ssm) (n : nat) (f : nat -> nat -> num) : Prop :=
  exists C, o = Some C /\ ssm_ok C /\ s_size C = n /\ full_is C f.

(** outside the rows and columns [nz], [T] is [d] times the identity *)
Definition diagonal_outside (n : nat) (T : csr) (nz : list nat) (d : num) : Prop :=
  forall i j, i < n -> j < n -> ~ (In i nz /\ In j nz) -> value T i j = if i =? j then d else 0%num.

(** the matrix [f] has the small matrix [M] in the rows and columns listed in [nz], in that
    order, and is [d] times the identity elsewhere *)
Definition placed (n : nat) (M : csr) (nz : list nat) (d : num) (f : nat -> nat -> num) : Prop :=
  (forall a b, a < length nz -> b < length nz -> f (nth a nz 0) (nth b nz 0) = value M a b) /\
  (forall i j, i < n -> j < n -> ~ (In i nz /\ In j nz) -> f i j = if i =? j then d else 0%num).

(** the largest magnitude among the stored values *)
Definition largest (M : csr) (m : num) : Prop :=
  (forall v, In v (c_data M) -> (qabs v <= m)%num) /\ exists v, In v (c_data M) /\ qabs v = m.

(** A history of the accumulator: for each row, a reset followed by scatters; the second
    component lists what is read back after each row. *)
Fixpoint spa_history (s : spa) (h : list (nat * list (nat * num))) : spa * list (list (nat * num)) :=
  match h with
  | [] => (s, [])
  | (r, l) :: t => let s1 := scatter_all (spa_reset s r) l in
                   let '(s2, outs) := spa_history s1 t in (s2, read_out s1 :: outs)
  end.
(** what is read back lists each column once, exactly the touched ones, with their totals *)
Definition outs_exact (l out : list (nat * num)) : Prop :=
  NoDup (map fst out) /\ (forall p, In p (map fst out) <-> In p (map fst l)) /\
  (forall e, In e out -> snd e = scattered l (fst e)).
