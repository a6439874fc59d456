(** Properties C182 and C183: kernels of the compiled modules that nothing in the package calls. *)
From Coq Require Import FinFun.
From Verif Require Import Base PartitionProofs LouvainModel SparseModel SparseSpec SparseProofs SparseConvProofs TransModel TransSpec MatProofs KernelModel.

Lemma qsquare_nonneg x : (0 <= x * x)%num.
Proof. destruct (Qclt_le_dec x 0%num) as [H|H]; [|now apply qmult_nonneg]. replace (x * x)%num with ((- x) * (- x))%num by ring. apply qmult_nonneg; qlra. Qed.
Lemma NoDup_prod {A B} (l : list A) (l' : list B) : NoDup l -> NoDup l' -> NoDup (list_prod l l').
Proof.
  intros Hl Hl'. induction Hl as [|a l Ha Hl IH]; cbn; [constructor|]. apply NoDup_app_iff. split; [|split; [exact IH|]].
  - apply FinFun.Injective_map_NoDup; [|exact Hl']. intros x y [= H]. exact H.
  - intros [x y] H1 H2. apply in_map_iff in H1. destruct H1 as (y' & [= -> ->] & _). apply in_prod_iff in H2. tauto.
Qed.
(** ** compute_S_0t0 *)
Definition term_0t0 (p0 pt : nat -> num) (T : mat) (i j k : nat) : num := (p0 i * T i k * (1 / pt k) * T j k * p0 j)%num.
(** covariance of being at [i] and at [j] when the same later node is reached: sum over the later nodes of
    P(i, k) P(j, k) / P(k), minus P(i) P(j) *)
Definition covariance (n : nat) (p0 pt : nat -> num) (T : mat) (i j : nat) : num := (sumN n (term_0t0 p0 pt T i j) - p0 i * p0 j)%num.
(** probabilities after the walk *)
Definition moved (n : nat) (p0 : nat -> num) (T : mat) (k : nat) : num := sumN n (fun i => (p0 i * T i k)%num).

Lemma fold_none {A} (f : nat -> A -> A) (g : nat -> bool) l : fold_left (fun (s : option A) k => match s with None => None | Some s => if g k then None else Some (f k s) end) l None = None.
Proof. induction l as [|k l IH]; [reflexivity|exact IH]. Qed.
Lemma fold_terms (g : nat -> num) (pt : nat -> num) l : (forall k, In k l -> pt k <> 0%num) -> forall s,
  fold_left (fun (s : option num) k => match s with None => None | Some s => if qeqb (pt k) 0%num then None else Some (s + g k)%num end) l (Some s) = Some (s + sumL g l)%num.
Proof.
  induction l as [|k l IH]; intros Hp s; cbn [fold_left]; [rewrite sumL_nil; f_equal; ring|]. destruct (qeqb_spec (pt k) 0%num) as [E|_]; [exfalso; now apply (Hp k (or_introl eq_refl))|].
  rewrite IH by (intros; apply Hp; now right). rewrite sumL_cons. f_equal. ring.
Qed.
Lemma fold_zero (g : nat -> num) (pt : nat -> num) l : (exists k, In k l /\ pt k = 0%num) -> forall s,
  fold_left (fun (s : option num) k => match s with None => None | Some s => if qeqb (pt k) 0%num then None else Some (s + g k)%num end) l s = None.
Proof.
  intros (k & Hk & E). induction l as [|x l IH]; [destruct Hk|]. intros s. cbn [fold_left]. destruct Hk as [->|Hk]; [|now apply IH].
  destruct s as [s|]; [destruct (qeqb_spec (pt k) 0%num); [|contradiction]|]; apply (fold_none (fun k s => (s + g k)%num) (fun k => qeqb (pt k) 0%num)).
Qed.
Lemma entry_0t0_spec n p0 pt T i j : (forall k, k < n -> pt k <> 0%num) -> entry_0t0 n p0 pt T i j = Some (covariance n p0 pt T i j).
Proof.
  intros Hp. unfold entry_0t0. rewrite (fold_terms (term_0t0 p0 pt T i j) pt (seq 0 n)) by (intros k Hk; apply in_seq in Hk; apply Hp; lia). f_equal. unfold covariance, sumN. ring.
Qed.
Lemma entry_0t0_zero n p0 pt T i j : (exists k, k < n /\ pt k = 0%num) -> entry_0t0 n p0 pt T i j = None.
Proof. intros (k & Hk & E). unfold entry_0t0. rewrite (fold_zero (term_0t0 p0 pt T i j) pt (seq 0 n)); [reflexivity|]. exists k. split; [apply in_seq; lia|exact E]. Qed.
Lemma all_entries_some {A B} (f : A -> option B) (g : A -> B) l : (forall x, In x l -> f x = Some (g x)) -> all_entries (map f l) = Some (map g l).
Proof. induction l as [|x l IH]; intros H; [reflexivity|]. cbn [map all_entries]. rewrite (H x) by now left. rewrite IH; [reflexivity|]. intros; apply H; now right. Qed.

(** a list of rows is the matrix [M] *)
Definition matrix_is (n : nat) (rows : list (list num)) (M : mat) : Prop :=
  length rows = n /\ forall i, i < n -> length (nth i rows []) = n /\ forall j, j < n -> nth j (nth i rows []) 0%num = M i j.

(** * C182 *)
(** For every initial distribution and every transition matrix there is a covariance matrix. *)
Definition C182_statement : Prop := forall n p0 T, stochastic n T -> (forall i, i < n -> (0 <= p0 i)%num) -> sumN n p0 = 1%num -> compute_S_0t0 n p0 (moved n p0 T) T <> None.
(** two nodes, all walkers stay at the first *)
Theorem C182_unreached_refuted : ~ C182_statement.
Proof.
  intros H. apply (H 2 (fun i => if i =? 0 then 1%num else 0%num) ident).
  - split; [intros [|[|i]] [|[|j]] Hi Hj; try lia; discriminate|intros [|[|i]] Hi; try lia; vm_compute; now apply Qc_is_canon].
  - intros [|[|i]] Hi; try lia; discriminate.
  - vm_compute. now apply Qc_is_canon.
  - vm_compute. reflexivity.
Qed.
Print Assumptions C182_unreached_refuted.
(** The call raises exactly when some node is not reached (and there are nodes). *)
Theorem C182_defined : forall n p0 pt T, compute_S_0t0 n p0 pt T = None <-> exists k, k < n /\ pt k = 0%num.
Proof.
  intros n p0 pt T. split.
  - intros H. assert (Q : forall m, m <= n -> (forall k, k < m -> pt k <> 0%num) \/ exists k, k < n /\ pt k = 0%num).
    { induction m as [|m IH]; intros Hm; [left; intros; lia|]. destruct (IH ltac:(lia)) as [Hy|Hx]; [|now right]. destruct (Qc_eq_dec (pt m) 0%num) as [E|E]; [right; exists m; split; [lia|exact E]|]. left. intros k Hk. destruct (Nat.eq_dec k m) as [->|]; [exact E|apply Hy; lia]. }
    destruct (Q n (le_n n)) as [Hy|Hx]; [|exact Hx]. exfalso. unfold compute_S_0t0 in H. rewrite (all_entries_some _ (fun i => map (covariance n p0 pt T i) (seq 0 n))) in H; [discriminate H|].
    intros i _. apply all_entries_some. intros j _. now apply entry_0t0_spec.
  - intros Hk. assert (Hn : 0 < n) by (destruct Hk as (k & Hk & _); lia). unfold compute_S_0t0. destruct n as [|n]; [lia|]. cbn [seq map all_entries]. now rewrite (entry_0t0_zero (S n)).
Qed.
(** positive semidefinite *)
Lemma double_sum n (x : nat -> num) (M : mat) : sumN n (fun i => sumN n (fun j => (x i * M i j * x j)%num)) = sumN n (fun i => (x i * sumN n (fun j => (M i j * x j)%num))%num).
Proof. apply sumN_ext. intros i _. rewrite <- sumN_scal_l. apply sumN_ext. intros j _. ring. Qed.
Lemma quadratic n p0 pt T x : sumN n (fun i => sumN n (fun j => (x i * covariance n p0 pt T i j * x j)%num)) =
  (sumN n (fun k => (1 / pt k * (sumN n (fun i => (x i * p0 i * T i k)%num) * sumN n (fun i => (x i * p0 i * T i k)%num)))%num) - sumN n (fun i => (x i * p0 i)%num) * sumN n (fun i => (x i * p0 i)%num))%num.
Proof.
  unfold covariance. rewrite (sumN_ext n _ (fun i => (sumN n (fun j => sumN n (fun k => (1 / pt k * ((x i * p0 i * T i k) * (x j * p0 j * T j k)))%num)) - sumN n (fun j => ((x i * p0 i) * (x j * p0 j))%num))%num)).
  2:{ intros i _. rewrite <- sumN_sub. apply sumN_ext. intros j _. rewrite (sumN_ext n (fun k => (1 / pt k * (x i * p0 i * T i k * (x j * p0 j * T j k)))%num) (fun k => ((x i * x j) * term_0t0 p0 pt T i j k)%num)) by (intros k _; unfold term_0t0; ring). rewrite sumN_scal_l. ring. }
  rewrite sumN_sub. f_equal; [|f_equal].
  - rewrite (sumN_ext n _ (fun i => sumN n (fun k => (1 / pt k * (x i * p0 i * T i k) * sumN n (fun j => (x j * p0 j * T j k)%num))%num))).
    2:{ intros i _. rewrite sumN_swap. apply sumN_ext. intros k _. rewrite <- sumN_scal_l. apply sumN_ext. intros j _. ring. }
    rewrite sumN_swap. apply sumN_ext. intros k _. rewrite <- (sumN_scal_r n (sumN n (fun i => (x i * p0 i * T i k)%num)) (fun i => (x i * p0 i * T i k)%num)). rewrite <- sumN_scal_l. apply sumN_ext. intros i _. ring.
  - rewrite <- sumN_scal_r. apply sumN_ext. intros i _. now rewrite sumN_scal_l.
Qed.
(** When every node is reached: the matrix of the covariances, which is symmetric; for a transition matrix its
    rows sum to 0 and its quadratic form is not negative, so that no group of nodes has a negative sum. *)
Theorem C182_covariance_partial : forall n p0 pt T, (forall k, k < n -> pt k <> 0%num) ->
  exists S, compute_S_0t0 n p0 pt T = Some S /\ matrix_is n S (covariance n p0 pt T) /\
  (forall i j, covariance n p0 pt T i j = covariance n p0 pt T j i) /\
  (stochastic n T -> (forall k, k < n -> pt k = moved n p0 T k) -> sumN n p0 = 1%num ->
    (forall i, i < n -> sumN n (covariance n p0 pt T i) = 0%num) /\
    ((forall k, k < n -> (0 < pt k)%num) -> forall x, (0 <= sumN n (fun i => sumN n (fun j => x i * covariance n p0 pt T i j * x j)))%num)).
Proof.
  intros n p0 pt T Hp. exists (map (fun i => map (covariance n p0 pt T i) (seq 0 n)) (seq 0 n)). split; [|split; [|split]].
  - unfold compute_S_0t0. apply all_entries_some. intros i _. apply all_entries_some. intros j _. now apply entry_0t0_spec.
  - split; [now rewrite map_length, seq_length|]. intros i Hi. rewrite (nth_map_dep _ _ _ 0) by (now rewrite seq_length). rewrite seq_nth by exact Hi. split; [now rewrite map_length, seq_length|].
    intros j Hj. rewrite (nth_map_dep _ _ _ 0) by (now rewrite seq_length). now rewrite seq_nth.
  - intros i j. unfold covariance. f_equal; [|ring]. apply sumN_ext. intros k _. unfold term_0t0. ring.
  - intros [_ HT] Hm H1. split.
    + intros i Hi. unfold covariance. rewrite sumN_sub, sumN_scal_l, H1. rewrite sumN_swap. rewrite (sumN_ext n _ (fun k => (p0 i * T i k)%num)).
      * rewrite sumN_scal_l, (HT i Hi). ring.
      * intros k Hk. rewrite (sumN_ext n _ (fun j => ((p0 i * T i k * (1 / pt k)) * (p0 j * T j k))%num)) by (intros j _; unfold term_0t0; ring). rewrite sumN_scal_l. fold (moved n p0 T k). rewrite <- (Hm k Hk). field. now apply Hp.
    + intros Hpos x. rewrite quadratic. set (a := fun k => sumN n (fun i => (x i * p0 i * T i k)%num)). set (A := sumN n (fun i => (x i * p0 i)%num)).
      assert (EA : sumN n a = A). { unfold a. rewrite sumN_swap. apply sumN_ext. intros i Hi. now rewrite sumN_scal_l, (HT i Hi), Qcmult_1_r. }
      assert (EP : sumN n pt = 1%num). { rewrite (sumN_ext n pt (moved n p0 T) Hm). unfold moved. rewrite sumN_swap, <- H1. apply sumN_ext. intros i Hi. now rewrite sumN_scal_l, (HT i Hi), Qcmult_1_r. }
      assert (EV : (sumN n (fun k => 1 / pt k * (a k * a k)) - A * A)%num = sumN n (fun k => (pt k * ((a k / pt k - A) * (a k / pt k - A)))%num)).
      { rewrite (sumN_ext n (fun k => (pt k * ((a k / pt k - A) * (a k / pt k - A)))%num) (fun k => (1 / pt k * (a k * a k) - ((A + A) * a k - A * A * pt k))%num)) by (intros k Hk; field; now apply Hp).
        rewrite !sumN_sub, !sumN_scal_l, EA, EP. ring. }
      change (0 <= sumN n (fun k => 1 / pt k * (a k * a k)) - A * A)%num. rewrite EV. apply sumN_nonneg. intros k Hk. apply qmult_nonneg; [apply Qclt_le_weak; now apply Hpos|]. apply qsquare_nonneg.
Qed.
Print Assumptions C182_defined.
Print Assumptions C182_covariance_partial.
Definition p182 : nat -> num := fun i => match i with 0 => qf 1 4 | 1 => qf 3 4 | _ => 0%num end.
Definition T182 : mat := fun i j => match i, j with 0, 0 => qf 1 2 | 0, 1 => qf 1 2 | 1, 0 => qf 1 3 | 1, 1 => qf 2 3 | _, _ => 0%num end.
Example C182_applies : stochastic 2 T182 /\ sumN 2 p182 = 1%num /\ (forall k, k < 2 -> (0 < moved 2 p182 T182 k)%num) /\
  compute_S_0t0 2 p182 (moved 2 p182 T182) T182 = Some [[qf 1 240; qf (-1) 240]; [qf (-1) 240; qf 1 240]].
Proof.
  split; [split; [intros [|[|i]] [|[|j]] Hi Hj; try lia; discriminate|intros [|[|i]] Hi; try lia; vm_compute; now apply Qc_is_canon]|]. split; [vm_compute; now apply Qc_is_canon|]. split; [intros [|[|i]] Hi; try lia; reflexivity|].
  vm_compute. repeat first [reflexivity | apply Qc_is_canon; reflexivity | apply f_equal | apply (f_equal2 (@cons (list num))) | apply (f_equal2 (@cons num))].
Qed.

(** ** csr_csc_matmul_countnnz *)
Definition common (row bs : list nat) : Prop := exists x, In x row /\ In x bs.
Lemma advance_suffix a bs : exists d, bs = d ++ advance a bs /\ (bs <> [] -> advance a bs <> []) /\ (forall x, In x d -> x < a) /\ (forall b r, advance a bs = b :: r -> r <> [] -> a <= b).
Proof.
  induction bs as [|b bs IH]; [exists []; cbn; repeat split; try tauto; intros; discriminate|]. destruct bs as [|b' bs].
  - exists []. cbn. repeat split; try discriminate; try tauto. intros b0 r [= <- <-]. congruence.
  - change (advance a (b :: b' :: bs)) with (if b <? a then advance a (b' :: bs) else b :: b' :: bs). destruct (Nat.ltb_spec b a) as [Hlt|Hge].
    + destruct IH as (d & E & Hne & Hd & Hh). exists (b :: d). split; [cbn [app]; now rewrite <- E|]. split; [intros _; apply Hne; discriminate|]. split; [intros x [<-|Hx]; [exact Hlt|now apply Hd]|exact Hh].
    + exists []. split; [reflexivity|]. split; [auto|]. split; [intros x []|]. intros b0 r [= <- _] _. exact Hge.
Qed.
Lemma meets_sound row : forall bs, meets row bs = true -> common row bs.
Proof.
  induction row as [|a row IH]; intros bs H; [discriminate|]. cbn [meets] in H. destruct (advance_suffix a bs) as (d & E & _). destruct (advance a bs) as [|b r] eqn:EA; [discriminate|]. destruct (Nat.eqb_spec b a) as [->|Hne].
  - exists a. split; [now left|]. rewrite E. apply in_or_app. right. now left.
  - destruct (IH _ H) as (x & H1 & H2). exists x. split; [now right|]. rewrite E. apply in_or_app. now right.
Qed.
Lemma meets_complete row : forall bs, StronglySorted lt row -> StronglySorted lt bs -> common row bs -> meets row bs = true.
Proof.
  induction row as [|a row IH]; intros bs Hr Hb (x & H1 & H2); [destruct H1|]. cbn [meets]. destruct (advance_suffix a bs) as (d & E & Hne & Hd & Hh). inversion Hr as [|? ? Hr' Ha]; subst. rewrite Forall_forall in Ha.
  assert (Hx : In x (advance a bs)). { rewrite E in H2. apply in_app_or in H2. destruct H2 as [H2|H2]; [|exact H2]. exfalso. specialize (Hd x H2). destruct H1 as [<-|H1]; [lia|]. specialize (Ha x H1). lia. }
  assert (Hs : StronglySorted lt (advance a bs)). { rewrite E in Hb. clear -Hb. induction d as [|y d IHd]; [exact Hb|]. inversion Hb; subst. now apply IHd. }
  destruct (advance a bs) as [|b r] eqn:EA; [destruct Hx|]. destruct (Nat.eqb_spec b a) as [|Hn]; [reflexivity|]. apply IH; [exact Hr'|exact Hs|]. exists x. split; [|exact Hx]. destruct H1 as [<-|H1]; [|exact H1]. exfalso.
  destruct r as [|b' r]; [destruct Hx as [Hx|[]]; congruence|]. specialize (Hh b (b' :: r) eq_refl ltac:(discriminate)). inversion Hs as [|? ? _ Hf]; subst. rewrite Forall_forall in Hf. destruct Hx as [Hx|Hx]; [congruence|]. specialize (Hf a Hx). lia.
Qed.
(** the loops count pairs *)
Definition pairs (n : nat) : list (nat * nat) := list_prod (seq 0 n) (seq 0 n).
Definition counted (A B : csr) (p : nat * nat) : bool := meets (row_indices A (fst p)) (row_indices B (snd p)).
Lemma meets_nil row : meets row [] = false.
Proof. destruct row; reflexivity. Qed.
Lemma fold_count {A} (f : A -> bool) l s : fold_left (fun nz j => if f j then S nz else nz) l s = s + length (filter f l).
Proof. revert s. induction l as [|x l IH]; intros s; cbn; [lia|]. rewrite IH. destruct (f x); cbn; lia. Qed.
Lemma fold_left_ext_in {A B} (f g : A -> B -> A) l : (forall a b, In b l -> f a b = g a b) -> forall a, fold_left f l a = fold_left g l a.
Proof. induction l as [|x l IH]; intros H a; cbn; [reflexivity|]. rewrite (H a x) by now left. apply IH. intros; apply H; now right. Qed.
Lemma filter_prod {A B} (f : A * B -> bool) l l' : length (filter f (list_prod l l')) = list_sum (map (fun a => length (filter (fun b => f (a, b)) l')) l).
Proof.
  induction l as [|a l IH]; [reflexivity|]. cbn [list_prod map list_sum fold_right]. rewrite filter_app, app_length. fold (list_sum (map (fun a => length (filter (fun b => f (a, b)) l')) l)). f_equal; [|exact IH].
  clear. induction l' as [|b l' IH]; [reflexivity|]. cbn. destruct (f (a, b)); cbn; now rewrite IH.
Qed.
Lemma countnnz_pairs n A B : length (c_ptr A) = S n -> countnnz A B = length (filter (counted A B) (pairs n)).
Proof.
  intros HL. unfold countnnz, pairs. rewrite HL. replace (S n - 1) with n by lia. rewrite filter_prod.
  rewrite (fold_left_ext_in _ (fun nz i => nz + length (filter (fun j => counted A B (i, j)) (seq 0 n)))).
  - generalize (seq 0 n) at 2 4. intros l. assert (Q : forall s, fold_left (fun nz i => nz + length (filter (fun j => counted A B (i, j)) (seq 0 n))) l s = s + list_sum (map (fun i => length (filter (fun j => counted A B (i, j)) (seq 0 n))) l)); [|exact (Q 0)].
    induction l as [|x l IH]; intros s; cbn [fold_left map list_sum fold_right]; [lia|]. rewrite IH. cbn [list_sum fold_right]. fold (list_sum (map (fun i => length (filter (fun j => counted A B (i, j)) (seq 0 n))) l)). lia.
  - intros nz i _. unfold counted. cbn [fst snd]. destruct (row_indices A i) as [|a row] eqn:ER.
    + assert (EF : forall l, filter (fun _ : nat => meets [] (row_indices B (snd (i, 0)))) l = []) by (induction l; auto). rewrite (filter_ext _ (fun _ => false)) by reflexivity. clear. induction (seq 0 n); cbn; [lia|assumption].
    + rewrite (fold_left_ext_in _ (fun nz j => if meets (a :: row) (row_indices B j) then S nz else nz)); [apply fold_count|]. intros k j _. destruct (row_indices B j) as [|b bs]; [|reflexivity]. now rewrite meets_nil.
Qed.

(** * C183 *)
(** stored entries of a row of A and of a column of B share an index *)
Definition share (A B : csr) (p : nat * nat) : Prop := exists k, In k (row_indices A (fst p)) /\ In k (row_indices B (snd p)).
(** entry of the product; [B] is given by columns *)
Definition product_entry (m : nat) (A B : csr) (i j : nat) : num := sumN m (fun k => (value A i k * value B j k)%num).
(** The count is the number of pairs of a row and a column that share an index, hence enough for the nonzero
    entries of the product. *)
Definition C183_statement : Prop := forall n A B, length (c_ptr A) = S n -> length (c_ptr B) = S n ->
  forall l, NoDup l -> (forall p, In p l <-> fst p < n /\ snd p < n /\ share A B p) -> countnnz A B = length l.
(** a row with the columns 1 and 0 in this order, a column with the rows 0 and 2: looking for 1 passes 0, which is
    then not found *)
Theorem C183_unsorted_refuted : ~ C183_statement.
Proof.
  intros H. specialize (H 2 (mkCsr [qz 1; qz 1] [1; 0] [0; 2; 2]) (mkCsr [qz 1; qz 1] [0; 2] [0; 2; 2]) eq_refl eq_refl [(0, 0)] ltac:(repeat constructor; intros [])).
  assert (E : countnnz (mkCsr [qz 1; qz 1] [1; 0] [0; 2; 2]) (mkCsr [qz 1; qz 1] [0; 2] [0; 2; 2]) = 0) by reflexivity. rewrite E in H. apply Nat.neq_0_succ in H; [exact H|]. clear. intros [i j]. split.
  - intros [H|[]]. injection H as <- <-. cbn. split; [lia|]. split; [lia|]. exists 0. cbn. auto.
  - cbn. intros (Hi & Hj & k & H1 & H2). cbn in H1, H2. destruct i as [|[|i]], j as [|[|j]]; try lia; cbn in H1, H2; try contradiction. now left.
Qed.
Print Assumptions C183_unsorted_refuted.
(** It never counts too much; with sorted indices it counts all pairs, and so at least the nonzero entries of the
    product. *)
Theorem C183_count_partial : forall n A B, length (c_ptr A) = S n ->
  (forall l, (forall p, fst p < n -> snd p < n -> share A B p -> In p l) -> countnnz A B <= length l) /\
  ((forall i, i < n -> StronglySorted lt (row_indices A i)) -> (forall j, j < n -> StronglySorted lt (row_indices B j)) ->
    (forall l, NoDup l -> (forall p, In p l <-> fst p < n /\ snd p < n /\ share A B p) -> countnnz A B = length l) /\
    (forall m l, NoDup l -> (forall p, In p l -> fst p < n /\ snd p < n /\ product_entry m A B (fst p) (snd p) <> 0%num) -> length l <= countnnz A B)).
Proof.
  intros n A B HL. rewrite (countnnz_pairs n A B HL).
  assert (HP : forall p, In p (pairs n) <-> fst p < n /\ snd p < n) by (intros [i j]; unfold pairs; rewrite in_prod_iff, !in_seq; cbn; lia).
  assert (HN : NoDup (filter (counted A B) (pairs n))) by (apply NoDup_filter; apply NoDup_prod; apply seq_NoDup).
  split.
  - intros l Hl. apply NoDup_incl_length; [exact HN|]. intros p Hp. apply filter_In in Hp. destruct Hp as [Hp Hc]. apply HP in Hp. apply Hl; [apply Hp|apply Hp|]. apply meets_sound in Hc. exact Hc.
  - intros SA SB. assert (HC : forall p, In p (filter (counted A B) (pairs n)) <-> fst p < n /\ snd p < n /\ share A B p).
    { intros p. rewrite filter_In, HP. split; [intros [[H1 H2] Hc]; split; [exact H1|]; split; [exact H2|]; now apply meets_sound in Hc|]. intros (H1 & H2 & Hs). split; [auto|]. apply meets_complete; [now apply SA|now apply SB|exact Hs]. }
    split.
    + intros l Hl He. apply Nat.le_antisymm; apply NoDup_incl_length; try assumption; intros p Hp; [apply He, HC, Hp|apply HC, He, Hp].
    + intros m l Hl He. apply NoDup_incl_length; [exact Hl|]. intros p Hp. apply HC. destruct (He p Hp) as (H1 & H2 & Hz). split; [exact H1|]. split; [exact H2|].
      destruct (existsb (fun k => memb k (row_indices A (fst p)) && memb k (row_indices B (snd p))) (seq 0 m)) eqn:EX.
      * apply existsb_exists in EX. destruct EX as (k & _ & Hk). apply andb_true_iff in Hk. destruct Hk as [K1 K2]. apply memb_In in K1, K2. exists k. auto.
      * exfalso. apply Hz. unfold product_entry. apply sumN_zero. intros k Hk. rewrite <- not_true_iff_false in EX. assert (HK : forall M i, memb k (row_indices M i) = false -> value M i k = 0%num).
        { intros M i Hm. unfold value. apply sumL_zero. intros e He'. destruct (Nat.eqb_spec (fst e) k) as [Ek|]; [|reflexivity]. exfalso. rewrite <- not_true_iff_false, memb_In in Hm. apply Hm. rewrite <- Ek. now apply in_map. }
        destruct (memb k (row_indices A (fst p))) eqn:E1; [|rewrite (HK _ _ E1); ring]. destruct (memb k (row_indices B (snd p))) eqn:E2; [|rewrite (HK _ _ E2); ring]. exfalso. apply EX. apply existsb_exists. exists k. split; [apply in_seq; lia|now rewrite E1, E2].
Qed.
Print Assumptions C183_count_partial.
Definition A183 : csr := mkCsr [qz 1; qz 2; qz 3] [0; 2; 1] [0; 2; 3].
Definition B183 : csr := mkCsr [qz 1; qz 1; qz 4] [1; 2; 0] [0; 2; 3].
Example C183_applies : length (c_ptr A183) = 3 /\ (forall i, i < 2 -> StronglySorted lt (row_indices A183 i)) /\ (forall j, j < 2 -> StronglySorted lt (row_indices B183 j)) /\ countnnz A183 B183 = 3.
Proof. split; [reflexivity|]. split; [intros [|[|i]] Hi; try lia; cbn; repeat constructor; lia|]. split; [intros [|[|i]] Hi; try lia; cbn; repeat constructor; lia|]. reflexivity. Qed.
