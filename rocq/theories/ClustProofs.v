(** Lemmas about loading integrals and about components. *)
From Verif Require Import Base PartitionModel PartitionSpec PartitionProofs LouvainModel LouvainSpec LouvainProofs
  SparseModel SparseSpec SparseProofs SparseOpsProofs SparseConvProofs AutocovModel AutocovSpec AutocovProofs
  AutocovAggProofs AutocovCtorProofs SparseLouvainModel SparseLouvainSpec SparseLouvainProofs
  MatProofs TransModel TransSpec FlowModel FlowSpec CovModel CovSpec MultiModel MultiSpec MultiProofs ClustSearchProofs ClustModel ClustSpec.

(** * The arrays of a matrix *)
Definition entries_of (n : nat) (M : mat) (i : nat) : list (nat * num) :=
  map (fun j => (j, M i j)) (filter (fun j => negb (qeqb (M i j) 0%num)) (seq 0 n)).
Lemma csr_of_row n M i : i < n -> row_entries (csr_of n M) i = entries_of n M i.
Proof.
  intros Hi. unfold csr_of. rewrite row_entries_of_rows by (now rewrite map_length, seq_length).
  rewrite nth_map_seq_default by exact Hi. reflexivity.
Qed.
Lemma csr_of_rows n M i : row_entries (csr_of n M) i = if i <? n then entries_of n M i else [].
Proof.
  destruct (Nat.ltb_spec i n) as [H|H]; [now apply csr_of_row|]. unfold row_entries, row_range.
  assert (L : length (c_ptr (csr_of n M)) = S n) by (unfold csr_of, of_rows; cbn [c_ptr]; rewrite ptrs_length, map_length, seq_length; lia).
  rewrite (nth_overflow (c_ptr (csr_of n M)) 0 (n := S i)) by lia. reflexivity.
Qed.
Lemma csr_of_ok n M : csr_ok n (csr_of n M).
Proof.
  apply csr_ok_of_rows; [now rewrite map_length, seq_length|]. intros r e Hr He. apply in_map_iff in Hr. destruct Hr as (i & <- & _).
  apply in_map_iff in He. destruct He as (j & <- & Hj). apply filter_In in Hj. apply seq_In_iff. apply Hj.
Qed.
Lemma entries_scattered (f : nat -> num) l j : NoDup l ->
  scattered (map (fun k => (k, f k)) (filter (fun k => negb (qeqb (f k) 0%num)) l)) j = if memb j l then f j else 0%num.
Proof.
  intros Hnd. rewrite (scattered_keyed f) by now apply NoDup_filter.
  destruct (memb_spec j (filter (fun k => negb (qeqb (f k) 0%num)) l)) as [H|H]; rewrite filter_In in H.
  - destruct (memb_spec j l) as [|N]; [reflexivity|]. exfalso. now apply N.
  - destruct (memb_spec j l) as [Hi|]; [|reflexivity]. destruct (qeqb_spec (f j) 0%num) as [E|E]; [now symmetry|]. exfalso. apply H. auto.
Qed.
Lemma csr_of_value n M i j : i < n -> j < n -> value (csr_of n M) i j = M i j.
Proof.
  intros Hi Hj. rewrite value_scattered, csr_of_row by exact Hi. unfold entries_of. rewrite (entries_scattered (M i)) by apply seq_NoDup.
  destruct (memb_spec j (seq 0 n)) as [|N]; [reflexivity|]. exfalso. apply N. now apply seq_In_iff.
Qed.
Lemma csr_of_norep n M : no_repetition (csr_of n M).
Proof.
  intros i. rewrite csr_of_rows. destruct (i <? n); [|constructor]. unfold entries_of. rewrite map_map. cbn [fst]. rewrite map_id.
  apply NoDup_filter, seq_NoDup.
Qed.
Lemma csr_of_positive n M : (forall i j, i < n -> j < n -> (0 <= M i j)%num) -> positive_entries (csr_of n M).
Proof.
  intros H i e. rewrite csr_of_rows. destruct (Nat.ltb_spec i n) as [Hi|]; [|intros []]. intros He. apply in_map_iff in He. destruct He as (j & <- & Hj).
  apply filter_In in Hj. destruct Hj as [Hj Hz]. apply seq_In_iff in Hj. cbn [snd]. destruct (qeqb_spec (M i j) 0%num) as [|N]; [discriminate|].
  destruct (qle_lt_or_eq _ _ (H i j Hi Hj)) as [L|L]; [exact L|]. now symmetry in L.
Qed.

(** * Normalisation *)
(** non-negative, symmetric and without zero rows *)
Definition good (n : nat) (M : mat) : Prop :=
  (forall i j, i < n -> j < n -> (0 <= M i j)%num) /\ (forall i j, i < n -> j < n -> M i j = M j i) /\
  (forall i, i < n -> (0 < sumN n (M i))%num).
Lemma inv_pos x : (0 < x)%num -> (0 < / x)%num.
Proof.
  intros H. destruct (Qclt_le_dec 0 (/ x)) as [L|L]; [exact L|]. exfalso.
  assert (E : (x * / x = 1)%num) by (apply Qcmult_inv_r; intros E; rewrite E in H; revert H; apply Qcle_not_lt, Qcle_refl).
  assert (G : (0 <= x * (- / x))%num) by (apply qmult_nonneg; [now apply Qclt_le_weak|revert L; generalize (/ x)%num; qlra]).
  replace (x * - / x)%num with (- (x * / x))%num in G by ring. rewrite E in G. revert G. now vm_compute.
Qed.
Lemma qn_inv_pos n : 0 < n -> (0 < 1 / qn n)%num.
Proof. intros H. unfold Qcdiv. rewrite Qcmult_1_l. apply inv_pos. rewrite <- qn_0. now apply qn_lt. Qed.
Lemma nonzero_of_pos x : (0 < x)%num -> x <> 0%num.
Proof. intros H E. rewrite E in H. revert H. apply Qcle_not_lt, Qcle_refl. Qed.
Lemma rownormed_row n x M i : 0 < n -> sumN n (M i) <> 0%num -> x <> 0%num -> sumN n (row_normalise_to n x M i) = x.
Proof.
  intros Hn Hs Hx. unfold row_normalise_to. destruct (qeqb_spec (sumN n (M i)) 0%num) as [|_]; [contradiction|].
  rewrite (sumN_ext n (fun j => M i j / (sumN n (M i) / x))%num (fun j => / (sumN n (M i) / x) * M i j)%num).
  - rewrite sumN_scal_l. change (sumN n (fun j => M i j)) with (sumN n (M i)). set (s := sumN n (M i)) in *. field. split; assumption.
  - intros j _. unfold Qcdiv. ring.
Qed.
Lemma good_rownormed n M : 0 < n -> good n M ->
  (forall i j, i < n -> j < n -> (0 <= row_normalise_to n (1 / qn n) M i j)%num) /\
  (forall i, i < n -> sumN n (row_normalise_to n (1 / qn n) M i) = (1 / qn n)%num).
Proof.
  intros Hn (H0 & Hs & Hr). split.
  - intros i j Hi Hj. unfold row_normalise_to. specialize (Hr i Hi). destruct (qeqb_spec (sumN n (M i)) 0%num) as [E|E]; [now apply H0|].
    unfold Qcdiv at 1. apply qmult_nonneg; [now apply H0|]. apply Qclt_le_weak, inv_pos. unfold Qcdiv at 1. apply qmult_pos; [exact Hr|].
    apply inv_pos. now apply qn_inv_pos.
  - intros i Hi. apply rownormed_row; [exact Hn| |]; apply nonzero_of_pos; [now apply Hr|now apply qn_inv_pos].
Qed.
Lemma half_nonneg x y : (0 <= x -> 0 <= y -> 0 <= (x + y) / 2)%num.
Proof. intros Hx Hy. unfold Qcdiv. apply qmult_nonneg; [revert Hx Hy; qlra|]. now vm_compute. Qed.
Lemma half_sum n (f g : nat -> num) : sumN n (fun j => (f j + g j) / 2)%num = ((sumN n f + sumN n g) / 2)%num.
Proof.
  rewrite (sumN_ext n _ (fun j => / 2 * f j + / 2 * g j)%num).
  - rewrite sumN_add, !sumN_scal_l. change (sumN n (fun i => f i)) with (sumN n f). change (sumN n (fun i => g i)) with (sumN n g). unfold Qcdiv. ring.
  - intros j _. unfold Qcdiv. ring.
Qed.
Lemma step_good n M : 0 < n -> good n M -> good n (norm_step n M).
Proof.
  intros Hn HM. destruct (good_rownormed n M Hn HM) as [N0 Nr]. unfold norm_step. set (N := row_normalise_to n (1 / qn n) M) in *.
  split; [|split].
  - intros i j Hi Hj. apply half_nonneg; now apply N0.
  - intros i j _ _. f_equal. ring.
  - intros i Hi. rewrite (half_sum n (N i) (fun j => N j i)), Nr by exact Hi. unfold Qcdiv at 1. apply qmult_pos; [|now vm_compute].
    assert (G : (0 <= sumN n (fun j => N j i))%num) by (apply sumN_nonneg; intros j Hj; now apply N0).
    assert (U := qn_inv_pos n Hn). revert G U. generalize (1 / qn n)%num (sumN n (fun j => N j i)). qlra.
Qed.
Lemma iter_good n k : 0 < n -> forall M, good n M -> good n (norm_iter n k M).
Proof. intros Hn. induction k as [|k IH]; intros M HM; [exact HM|]. cbn [norm_iter]. apply IH. now apply step_good. Qed.
(** after an iteration everything sums to one *)
Lemma step_sum n M : 0 < n -> good n M -> sumN n (fun i => sumN n (norm_step n M i)) = 1%num.
Proof.
  intros Hn HM. destruct (good_rownormed n M Hn HM) as [_ Nr]. unfold norm_step. set (N := row_normalise_to n (1 / qn n) M) in *.
  rewrite (sumN_ext n _ (fun i => ((sumN n (N i) + sumN n (fun j => N j i)) / 2)%num)) by (intros i _; apply half_sum).
  rewrite (half_sum n (fun i => sumN n (N i)) (fun i => sumN n (fun j => N j i))).
  rewrite (sumN_swap n n (fun i j => N j i)).
  rewrite (sumN_ext n (fun i => sumN n (fun i0 => N i i0)) (fun i => sumN n (N i))) by reflexivity.
  assert (E : sumN n (fun i => sumN n (N i)) = 1%num).
  { rewrite (sumN_ext n _ (fun _ => 1 / qn n)%num) by exact Nr. unfold sumN at 1. rewrite sumL_const, seq_length. field. apply nonzero_of_pos. rewrite <- qn_0. now apply qn_lt. }
  rewrite E. vm_compute. now apply Qc_is_canon.
Qed.
Lemma iter_snoc n k M : norm_iter n (S k) M = norm_step n (norm_iter n k M).
Proof. revert M. induction k as [|k IH]; intros M; [reflexivity|]. cbn [norm_iter] in *. now rewrite IH. Qed.
Lemma iter_sum n k M : 0 < n -> good n M -> sumN n (fun i => sumN n (norm_iter n (S k) M i)) = 1%num.
Proof. intros Hn HM. rewrite iter_snoc. apply step_sum; [exact Hn|]. now apply iter_good. Qed.
(** nothing changes when rows already sum to 1/n *)
Lemma step_fixed n M : 0 < n -> good n M -> (forall i, i < n -> sumN n (M i) = (1 / qn n)%num) ->
  forall i j, i < n -> j < n -> norm_step n M i j = M i j.
Proof.
  intros Hn (H0 & Hs & Hr) H i j Hi Hj. unfold norm_step, row_normalise_to.
  assert (U : (1 / qn n)%num <> 0%num) by (apply nonzero_of_pos; now apply qn_inv_pos).
  rewrite (H i Hi), (H j Hj). destruct (qeqb_spec (1 / qn n)%num 0%num) as [|_]; [contradiction|].
  rewrite (Hs j i Hj Hi). replace ((1 / qn n) / (1 / qn n))%num with 1%num by (set (u := (1 / qn n)%num) in *; field; exact U).
  replace (M i j / 1)%num with (M i j) by (field; discriminate). generalize (M i j). intros x. unfold Qcdiv.
  replace (x + x)%num with (x * 2)%num by (replace 2%num with (1 + 1)%num by (vm_compute; now apply Qc_is_canon); ring). rewrite <- Qcmult_assoc. replace (2 * / 2)%num with 1%num by (vm_compute; now apply Qc_is_canon). ring.
Qed.
Lemma norm_step_ext n M M' : (forall i j, i < n -> j < n -> M i j = M' i j) -> forall i j, i < n -> j < n -> norm_step n M i j = norm_step n M' i j.
Proof.
  intros H i j Hi Hj. unfold norm_step, row_normalise_to.
  rewrite (sumN_ext n (M i) (M' i)) by (intros; now apply H). rewrite (sumN_ext n (M j) (M' j)) by (intros; now apply H).
  now rewrite (H i j Hi Hj), (H j i Hj Hi).
Qed.
Lemma norm_iter_ext n k : forall M M', (forall i j, i < n -> j < n -> M i j = M' i j) -> forall i j, i < n -> j < n -> norm_iter n k M i j = norm_iter n k M' i j.
Proof. induction k as [|k IH]; intros M M' H; [exact H|]. cbn [norm_iter]. apply IH. now apply norm_step_ext. Qed.
Lemma iter_fixed n k M : 0 < n -> good n M -> (forall i, i < n -> sumN n (M i) = (1 / qn n)%num) ->
  forall i j, i < n -> j < n -> norm_iter n k M i j = M i j.
Proof.
  intros Hn HM H. induction k as [|k IH]; intros i j Hi Hj; [reflexivity|]. cbn [norm_iter].
  rewrite (norm_iter_ext n k _ M (step_fixed n M Hn HM H)) by assumption. now apply IH.
Qed.
(** which entries are positive does not change *)
Lemma step_support n M i j : 0 < n -> good n M -> i < n -> j < n -> (0 < norm_step n M i j)%num <-> (0 < M i j)%num.
Proof.
  intros Hn (H0 & Hs & Hr) Hi Hj. unfold norm_step, row_normalise_to.
  destruct (qeqb_spec (sumN n (M i)) 0%num) as [E|_]; [exfalso; now apply (nonzero_of_pos _ (Hr i Hi))|].
  destruct (qeqb_spec (sumN n (M j)) 0%num) as [E|_]; [exfalso; now apply (nonzero_of_pos _ (Hr j Hj))|].
  rewrite (Hs j i Hj Hi). set (a := (sumN n (M i) / (1 / qn n))%num). set (b := (sumN n (M j) / (1 / qn n))%num).
  assert (A : (0 < / a)%num). { apply inv_pos. unfold a. unfold Qcdiv at 1. apply qmult_pos; [now apply Hr|apply inv_pos; now apply qn_inv_pos]. }
  assert (B : (0 < / b)%num). { apply inv_pos. unfold b. unfold Qcdiv at 1. apply qmult_pos; [now apply Hr|apply inv_pos; now apply qn_inv_pos]. }
  assert (E : ((M i j / a + M i j / b) / 2 = M i j * ((/ a + / b) * / 2))%num) by (unfold Qcdiv; ring).
  rewrite E. assert (C : (0 < (/ a + / b) * / 2)%num).
  { apply qmult_pos; [revert A B; generalize (/ a)%num (/ b)%num; qlra|now vm_compute]. }
  split; intros H.
  - destruct (qle_lt_or_eq _ _ (H0 i j Hi Hj)) as [L|L]; [exact L|]. rewrite <- L in H. replace (0 * ((/ a + / b) * / 2))%num with 0%num in H by ring. exfalso. revert H. apply Qcle_not_lt, Qcle_refl.
  - now apply qmult_pos.
Qed.
Lemma iter_support n k : 0 < n -> forall M i j, good n M -> i < n -> j < n -> (0 < norm_iter n k M i j)%num <-> (0 < M i j)%num.
Proof.
  intros Hn. induction k as [|k IH]; intros M i j HM Hi Hj; [reflexivity|]. cbn [norm_iter].
  rewrite (IH _ i j (step_good n M Hn HM) Hi Hj). now apply step_support.
Qed.

(** * Loading *)
Lemma full_symmetrised n M t i j : (forall i j, j < i -> M i j = 0%num) ->
  full_integral n M t i j = (1 / qn n * symmetrised M i j * (1 / qn n) / t)%num.
Proof.
  intros HU. unfold full_integral, symmetrised. set (u := (1 / qn n)%num). unfold Qcdiv. rewrite !Qcmult_1_l.
  destruct (Nat.eqb_spec i j) as [->|N].
  - rewrite Nat.leb_refl. ring.
  - destruct (Nat.leb_spec i j) as [L|L].
    + rewrite (HU j i) by lia. ring.
    + rewrite (HU i j) by lia. ring.
Qed.
Lemma symmetrised_sym M i j : symmetrised M i j = symmetrised M j i.
Proof. unfold symmetrised. destruct (Nat.leb_spec i j), (Nat.leb_spec j i); try reflexivity; [|lia]. now replace j with i by lia. Qed.
Lemma symmetrised_nonneg n M i j : (forall i j, i < n -> j < n -> (0 <= M i j)%num) -> i < n -> j < n -> (0 <= symmetrised M i j)%num.
Proof. intros H Hi Hj. unfold symmetrised. destruct (i <=? j); now apply H. Qed.
Lemma full_support n M t i j : integral_ok n M t -> (0 < full_integral n M t i j)%num <-> (0 < symmetrised M i j)%num.
Proof.
  intros (Hn & Ht & HU & _). rewrite full_symmetrised by exact HU.
  assert (C : (0 < 1 / qn n * (1 / qn n) * / t)%num) by (apply qmult_pos; [apply qmult_pos; now apply qn_inv_pos|now apply inv_pos]).
  replace (1 / qn n * symmetrised M i j * (1 / qn n) / t)%num with (symmetrised M i j * (1 / qn n * (1 / qn n) * / t))%num by (unfold Qcdiv; ring).
  split; intros H.
  - destruct (Qclt_le_dec 0 (symmetrised M i j)) as [L|L]; [exact L|]. exfalso.
    assert (G : (0 <= (- symmetrised M i j) * (1 / qn n * (1 / qn n) * / t))%num) by (apply qmult_nonneg; [revert L; generalize (symmetrised M i j); qlra|now apply Qclt_le_weak]).
    revert H G. set (c := (1 / qn n * (1 / qn n) * / t)%num). replace (- symmetrised M i j * c)%num with (- (symmetrised M i j * c))%num by ring.
    generalize (symmetrised M i j * c)%num. qlra.
  - now apply qmult_pos.
Qed.
Lemma full_good n M t : integral_ok n M t -> good n (full_integral n M t).
Proof.
  intros HI. pose proof HI as (Hn & Ht & HU & H0 & Hr).
  assert (N : forall i j, i < n -> j < n -> (0 <= full_integral n M t i j)%num).
  { intros i j Hi Hj. rewrite full_symmetrised by exact HU. unfold Qcdiv at 1. apply qmult_nonneg; [|now apply Qclt_le_weak, inv_pos].
    assert (U := Qclt_le_weak _ _ (qn_inv_pos n Hn)). apply qmult_nonneg; [apply qmult_nonneg; [exact U|]|exact U]. now apply (symmetrised_nonneg n). }
  split; [exact N|]. split.
  - intros i j _ _. rewrite !full_symmetrised by exact HU. now rewrite symmetrised_sym.
  - intros i Hi. destruct (Hr i Hi) as (j & Hj & Hp). apply (full_support n M t i j HI) in Hp.
    assert (G : (0 <= sumN n (full_integral n M t i))%num) by (apply sumN_nonneg; intros k Hk; now apply N).
    destruct (qle_lt_or_eq _ _ G) as [L|L]; [exact L|]. exfalso. apply (nonzero_of_pos _ Hp).
    apply (sumL_nonneg_zero (full_integral n M t i) (seq 0 n)); [|now symmetry|now apply seq_In_iff].
    intros k Hk. apply N; [exact Hi|now apply seq_In_iff].
Qed.

(** the loaded matrix *)
Definition loaded (n norm : nat) (M : mat) (t : num) : mat := norm_iter n norm (full_integral n M t).
Lemma load_spec n norm M t : integral_ok n M t ->
  exists A, load_autocov n norm M t = Some A /\ usable n (csr_of n (loaded n norm M t)) (PScal (1 / qn n) (1 / qn n)) true A /\
    positive_entries (csr_of n (loaded n norm M t)) /\
    (forall i j, i < n -> j < n -> toarray A i j = (loaded n norm M t i j - 1 / qn n * (1 / qn n))%num).
Proof.
  intros HI. assert (Hn : 0 < n) by apply HI. assert (HG : good n (loaded n norm M t)) by (apply iter_good; [exact Hn|now apply full_good]).
  unfold load_autocov. fold (loaded n norm M t). set (L := loaded n norm M t) in *. clearbody L.
  unfold ac_init. eexists. split; [reflexivity|].
  assert (HB : built n (csr_of n L) (PScal (1 / qn n) (1 / qn n)) true (mkA (sort_indices (csr_of n L)) (sort_indices (csr_of n L)) (PScal (1 / qn n) (1 / qn n)) true)).
  { split; [apply csr_of_ok|]. split; [|reflexivity]. intros _ i j Hi Hj. rewrite !csr_of_value by assumption. now apply HG. }
  split; [|split].
  - split; [exact HB|]. split; [apply csr_of_norep|]. split; [split; reflexivity|]. split.
    + intros i j Hi Hj. rewrite csr_of_value by assumption. now apply HG.
    + intros i Hi. rewrite (sumN_ext n (value (csr_of n L) i) (L i)) by (intros j Hj; now apply csr_of_value). now apply HG.
  - apply csr_of_positive. apply HG.
  - intros i j Hi Hj. unfold toarray. destruct (built_inv _ _ _ _ _ HB) as (_ & Ep & _ & _ & _ & _ & Hv & _). rewrite Ep, Hv by assumption.
    rewrite csr_of_value by assumption. reflexivity.
Qed.
Lemma load_same_links n norm M t x y : integral_ok n M t -> x < n -> y < n -> (0 < loaded n norm M t x y)%num <-> (0 < symmetrised M x y)%num.
Proof.
  intros HI Hx Hy. unfold loaded. rewrite (iter_support n norm (proj1 HI) _ x y (full_good n M t HI) Hx Hy). now apply full_support.
Qed.

(** * Components *)
Lemma linked_ext n W W' x y : (forall i j, i < n -> j < n -> (0 < W i j)%num <-> (0 < W' i j)%num) -> linked n W x y -> linked n W' x y.
Proof.
  intros H HL. induction HL as [x y (Hx & Hy & E)|x|x y _ IH|x y z _ IH1 _ IH2].
  - apply rst_step. split; [exact Hx|]. split; [exact Hy|]. now apply H.
  - apply rst_refl.
  - now apply rst_sym.
  - now apply rst_trans with y.
Qed.
Lemma linked_step n W x y : x < n -> y < n -> (0 < W x y)%num -> linked n W x y.
Proof. intros Hx Hy H. now apply rst_step. Qed.
Lemma nodes_of_In label c x : In x (nodes_of label c) <-> x < length label /\ nth x label 0 = c.
Proof. unfold nodes_of. rewrite filter_In, <- seq_In_iff. destruct (Nat.eqb_spec (nth x label 0) c); intuition discriminate. Qed.
Lemma nodes_outside_In label c x : In x (nodes_outside label c) <-> x < length label /\ nth x label 0 <> c.
Proof. unfold nodes_outside. rewrite filter_In, <- seq_In_iff. destruct (Nat.eqb_spec (nth x label 0) c); intuition discriminate. Qed.
Lemma nodes_of_NoDup label c : NoDup (nodes_of label c).
Proof. apply NoDup_filter, seq_NoDup. Qed.
Lemma idx_list_length label c : length (idx_list label c) = S (length (nodes_of label c)).
Proof. unfold idx_list. cbn [length]. now rewrite map_length. Qed.
Lemma idx_list_nth label c k : k < length (nodes_of label c) -> nth (S k) (idx_list label c) [] = [nth k (nodes_of label c) 0].
Proof. intros H. unfold idx_list. cbn [nth]. rewrite (nth_indep _ [] [0]) by now rewrite map_length. now rewrite (map_nth (fun i => [i])). Qed.
Lemma idx_list_partitions label c : partitions (length label) (idx_list label c).
Proof.
  apply partitions_perm. unfold idx_list. cbn [concat]. rewrite <- flat_map_concat_map.
  assert (E : flat_map (fun i : nat => [i]) (nodes_of label c) = nodes_of label c) by (induction (nodes_of label c) as [|x l IH]; [reflexivity|]; cbn; now rewrite IH).
  rewrite E. unfold nodes_outside, nodes_of. generalize (seq 0 (length label)). intros l. induction l as [|x l IH]; [constructor|].
  cbn [filter]. destruct (nth x label 0 =? c); cbn [negb].
  - apply Permutation_sym, Permutation_cons_app, Permutation_sym. exact IH.
  - cbn [app]. now constructor.
Qed.
