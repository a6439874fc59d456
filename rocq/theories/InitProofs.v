(** Lemmas about integrals with a density. *)
From Verif Require Import Base PartitionModel PartitionSpec PartitionProofs LouvainModel LouvainSpec LouvainProofs
  SparseModel SparseSpec SparseProofs SparseOpsProofs SparseConvProofs AutocovModel AutocovSpec AutocovProofs
  AutocovAggProofs AutocovCtorProofs SparseLouvainModel SparseLouvainSpec SparseLouvainProofs
  MatProofs TransModel TransSpec FlowModel FlowSpec FlowGridProofs CovModel CovSpec MultiModel MultiSpec MultiProofs ClustSearchProofs ClustModel ClustSpec ClustProofs ClustRunProofs
  InitModel InitSpec.
Local Open Scope bool_scope.

(** non-negative, symmetric, and zero rows where the density is zero *)
Definition goodp (n : nat) (p : list num) (M : mat) : Prop :=
  (forall i j, i < n -> j < n -> (0 <= M i j)%num) /\ (forall i j, i < n -> j < n -> M i j = M j i) /\
  (forall i j, i < n -> j < n -> nth i p 0%num = 0%num -> M i j = 0%num).
(** rows where the density is positive *)
Definition posrows (n : nat) (p : list num) (M : mat) : Prop := forall i, i < n -> (0 < nth i p 0)%num -> (0 < sumN n (M i))%num.
Lemma row_zero_of_sum n (M : mat) i : (forall j, j < n -> (0 <= M i j)%num) -> sumN n (M i) = 0%num -> forall j, j < n -> M i j = 0%num.
Proof.
  intros H E j Hj. apply (sumL_nonneg_zero (M i) (seq 0 n)); [|exact E|now apply seq_In_iff]. intros k Hk. apply H. now apply seq_In_iff.
Qed.
Lemma nth_nonneg (p : list num) i : (forall x, In x p -> (0 <= x)%num) -> (0 <= nth i p 0)%num.
Proof. intros H. destruct (Nat.lt_ge_cases i (length p)) as [L|L]; [apply H; now apply nth_In|rewrite nth_overflow by exact L; apply Qcle_refl]. Qed.
Lemma sum_nth (p : list num) n : length p = n -> sumN n (fun i => nth i p 0%num) = sumL (fun x => x) p.
Proof. intros <-. unfold sumN. rewrite <- (map_nth_seq p 0%num) at 2. now rewrite sumL_map. Qed.

Section Norm.
Context (n : nat) (p : list num).
Hypothesis Hp : forall x, In x p -> (0 <= x)%num.

Lemma vec_case M i j : goodp n p M -> i < n -> j < n ->
  row_normalise_vec n p M i j = if qeqb (sumN n (M i)) 0%num then M i j else (M i j / (sumN n (M i) / nth i p 0))%num.
Proof.
  intros (H0 & _ & Hz) Hi Hj. unfold row_normalise_vec. destruct (qeqb_spec (sumN n (M i)) 0%num) as [|E]; [reflexivity|].
  destruct (qeqb_spec (nth i p 0%num) 0%num) as [E'|_]; [|reflexivity]. exfalso. apply E. apply sumN_zero. intros k Hk. now apply Hz.
Qed.
Lemma sum_case M i : goodp n p M -> i < n -> sumN n (M i) <> 0%num -> (0 < sumN n (M i))%num /\ (0 < nth i p 0)%num.
Proof.
  intros (H0 & _ & Hz) Hi E. split.
  - assert (G : (0 <= sumN n (M i))%num) by (apply sumN_nonneg; intros; now apply H0). destruct (qle_lt_or_eq _ _ G) as [L|L]; [exact L|now symmetry in L].
  - destruct (qle_lt_or_eq _ _ (nth_nonneg p i Hp)) as [L|L]; [exact L|]. exfalso. apply E. apply sumN_zero. intros k Hk. apply Hz; [exact Hi|exact Hk|now symmetry].
Qed.
Lemma vec_nonneg M i j : goodp n p M -> i < n -> j < n -> (0 <= row_normalise_vec n p M i j)%num.
Proof.
  intros HG Hi Hj. rewrite vec_case by assumption. destruct (qeqb_spec (sumN n (M i)) 0%num) as [|E]; [now apply HG|].
  destruct (sum_case M i HG Hi E) as [Hs Hpi]. unfold Qcdiv at 1. apply qmult_nonneg; [now apply HG|]. apply Qclt_le_weak, inv_pos.
  unfold Qcdiv. apply qmult_pos; [exact Hs|now apply inv_pos].
Qed.
Lemma vec_zero M i j : goodp n p M -> i < n -> j < n -> M i j = 0%num -> row_normalise_vec n p M i j = 0%num.
Proof.
  intros HG Hi Hj E. rewrite vec_case by assumption. destruct (qeqb_spec (sumN n (M i)) 0%num) as [|_]; [exact E|]. rewrite E. unfold Qcdiv. ring.
Qed.
Lemma vec_sum M i : goodp n p M -> posrows n p M -> i < n -> sumN n (row_normalise_vec n p M i) = nth i p 0%num.
Proof.
  intros HG HR Hi. rewrite (sumN_ext n _ (fun j => if qeqb (sumN n (M i)) 0%num then M i j else (M i j / (sumN n (M i) / nth i p 0))%num)) by (intros; now apply vec_case).
  destruct (qeqb_spec (sumN n (M i)) 0%num) as [E|E].
  - change (sumN n (fun j => M i j)) with (sumN n (M i)). rewrite E. destruct (qle_lt_or_eq _ _ (nth_nonneg p i Hp)) as [L|L]; [|exact L].
    specialize (HR i Hi L). rewrite E in HR. exfalso. revert HR. apply Qcle_not_lt, Qcle_refl.
  - destruct (sum_case M i HG Hi E) as [Hs Hpi]. apply nonzero_of_pos in Hs, Hpi.
    rewrite (sumN_ext n _ (fun j => / (sumN n (M i) / nth i p 0) * M i j)%num) by (intros; unfold Qcdiv; ring).
    rewrite sumN_scal_l. change (sumN n (fun j => M i j)) with (sumN n (M i)). set (s := sumN n (M i)) in *. field. split; assumption.
Qed.
Lemma init_step_good M : goodp n p M -> goodp n p (init_step n p M).
Proof.
  intros HG. unfold init_step. split; [|split].
  - intros i j Hi Hj. apply half_nonneg; now apply vec_nonneg.
  - intros i j _ _. f_equal. ring.
  - intros i j Hi Hj E. rewrite !vec_zero; try assumption.
    + vm_compute. now apply Qc_is_canon.
    + destruct HG as (_ & Hs & Hz). rewrite Hs by assumption. now apply Hz.
    + now apply HG.
Qed.
Lemma init_step_rows M : goodp n p M -> posrows n p M -> posrows n p (init_step n p M).
Proof.
  intros HG HR i Hi Hpi. unfold init_step. rewrite (half_sum n (row_normalise_vec n p M i) (fun j => row_normalise_vec n p M j i)), vec_sum by assumption.
  unfold Qcdiv. apply qmult_pos; [|now vm_compute].
  assert (G : (0 <= sumN n (fun j => row_normalise_vec n p M j i))%num) by (apply sumN_nonneg; intros j Hj; now apply vec_nonneg).
  revert G Hpi. generalize (nth i p 0%num) (sumN n (fun j => row_normalise_vec n p M j i)). qlra.
Qed.
Lemma init_step_zero M i j : goodp n p M -> i < n -> j < n -> M i j = 0%num -> init_step n p M i j = 0%num.
Proof.
  intros HG Hi Hj E. unfold init_step. rewrite !vec_zero; try assumption; [vm_compute; now apply Qc_is_canon|]. destruct HG as (_ & Hs & _). now rewrite Hs.
Qed.
Lemma init_iter_inv k : forall M, goodp n p M -> goodp n p (init_iter n k p M) /\ (posrows n p M -> posrows n p (init_iter n k p M)) /\
  (forall i j, i < n -> j < n -> M i j = 0%num -> init_iter n k p M i j = 0%num).
Proof.
  induction k as [|k IH]; intros M HG; [auto|]. cbn [init_iter]. destruct (IH _ (init_step_good M HG)) as (H1 & H2 & H3).
  split; [exact H1|]. split; [intros HR; now apply H2, init_step_rows|]. intros i j Hi Hj E. apply H3; try assumption. now apply init_step_zero.
Qed.
Lemma init_iter_snoc k M : init_iter n (S k) p M = init_step n p (init_iter n k p M).
Proof. revert M. induction k as [|k IH]; intros M; [reflexivity|]. cbn [init_iter] in *. now rewrite IH. Qed.
Lemma init_step_sum M : goodp n p M -> posrows n p M -> sumN n (fun i => sumN n (init_step n p M i)) = sumN n (fun i => nth i p 0%num).
Proof.
  intros HG HR. unfold init_step. set (N := row_normalise_vec n p M).
  rewrite (sumN_ext n _ (fun i => ((sumN n (N i) + sumN n (fun j => N j i)) / 2)%num)) by (intros i _; apply half_sum).
  rewrite (half_sum n (fun i => sumN n (N i)) (fun i => sumN n (fun j => N j i))). rewrite (sumN_swap n n (fun i j => N j i)).
  rewrite (sumN_ext n (fun i => sumN n (fun i0 => N i i0)) (fun i => sumN n (N i))) by reflexivity.
  rewrite (sumN_ext n (fun i => sumN n (N i)) (fun i => nth i p 0%num)) by (intros; now apply vec_sum).
  generalize (sumN n (fun i => nth i p 0%num)). intros x. unfold Qcdiv.
  replace (x + x)%num with (x * 2)%num by (replace 2%num with (1 + 1)%num by (vm_compute; now apply Qc_is_canon); ring).
  rewrite <- Qcmult_assoc. replace (2 * / 2)%num with 1%num by (vm_compute; now apply Qc_is_canon). ring.
Qed.
Lemma init_step_fixed M : goodp n p M -> (forall i, i < n -> sumN n (M i) = nth i p 0%num) -> forall i j, i < n -> j < n -> init_step n p M i j = M i j.
Proof.
  intros HG H i j Hi Hj. unfold init_step.
  assert (F : forall a b, a < n -> b < n -> row_normalise_vec n p M a b = M a b).
  { intros a b Ha Hb. rewrite vec_case by assumption. rewrite (H a Ha). destruct (qeqb_spec (nth a p 0%num) 0%num) as [|E]; [reflexivity|]. field. split; [exact E|discriminate]. }
  rewrite !F by assumption. destruct HG as (_ & Hs & _). rewrite (Hs j i Hj Hi). generalize (M i j). intros x. unfold Qcdiv.
  replace (x + x)%num with (x * 2)%num by (replace 2%num with (1 + 1)%num by (vm_compute; now apply Qc_is_canon); ring).
  rewrite <- Qcmult_assoc. replace (2 * / 2)%num with 1%num by (vm_compute; now apply Qc_is_canon). ring.
Qed.
Lemma init_iter_fixed k M : goodp n p M -> (forall i, i < n -> sumN n (M i) = nth i p 0%num) -> forall i j, i < n -> j < n -> init_iter n k p M i j = M i j.
Proof.
  intros HG H. induction k as [|k IH]; [reflexivity|]. intros i j Hi Hj. rewrite init_iter_snoc.
  assert (HG' := proj1 (init_iter_inv k M HG)).
  rewrite init_step_fixed; [now apply IH|exact HG'| |exact Hi|exact Hj].
  intros a Ha. rewrite <- (H a Ha). apply sumN_ext. intros b Hb. now apply IH.
Qed.
End Norm.

(** * The saved matrix *)
(** non-negative and upper triangular *)
Definition saved (n : nat) (M : mat) : Prop :=
  (forall i j, i < n -> j < n -> (0 <= M i j)%num) /\ (forall i j, i < n -> j < n -> j < i -> M i j = 0%num).
Lemma full_init_symmetrised n M t i j : saved n M -> i < n -> j < n -> full_init M t i j = (symmetrised M i j * (1 / t))%num.
Proof.
  intros [_ HU] Hi Hj. unfold full_init, symmetrised. destruct (Nat.eqb_spec i j) as [->|N].
  - rewrite Nat.leb_refl. ring.
  - destruct (Nat.leb_spec i j) as [L|L]; [rewrite (HU j i) by lia|rewrite (HU i j) by lia]; ring.
Qed.
Lemma csr_of_data n M v : In v (c_data (csr_of n M)) <-> v <> 0%num /\ exists i j, i < n /\ j < n /\ M i j = v.
Proof.
  unfold csr_of, of_rows. cbn [c_data]. rewrite concat_map, map_map, <- flat_map_concat_map, in_flat_map. split.
  - intros (i & Hi & H). rewrite map_map, in_map_iff in H. destruct H as (j & <- & Hj). cbn [snd]. apply filter_In in Hj. destruct Hj as [Hj Hz].
    split; [destruct (qeqb_spec (M i j) 0%num) as [|N]; [discriminate|exact N]|]. exists i, j. rewrite <- !seq_In_iff. auto.
  - intros (Hz & i & j & Hi & Hj & <-). exists i. split; [now apply seq_In_iff|]. rewrite map_map, in_map_iff. exists j. split; [reflexivity|].
    apply filter_In. split; [now apply seq_In_iff|]. destruct (qeqb_spec (M i j) 0%num) as [E|_]; [now rewrite E in Hz|reflexivity].
Qed.
Lemma qabs_pos x : (0 <= x)%num -> qabs x = x.
Proof. intros H. unfold qabs. destruct (qltb_spec x 0%num) as [L|_]; [|reflexivity]. exfalso. now apply (Qcle_not_lt _ _ H). Qed.
Lemma round_spec n r M : (forall i j, i < n -> j < n -> (0 <= M i j)%num) -> (0 <= r)%num ->
  let R := value (set_to_zeroes (csr_of n M) r true false) in
  (forall i j, i < n -> j < n -> R i j = 0%num \/ R i j = M i j) /\
  ((r < 1)%num -> (exists i j, i < n /\ j < n /\ (0 < M i j)%num) -> exists i j, i < n /\ j < n /\ (0 < R i j)%num).
Proof.
  intros H0 Hr R. set (C := csr_of n M). set (m := qmax (qabs (list_min (c_data C))) (qabs (list_max (c_data C)))).
  assert (HL : c_data C <> [] -> largest C m) by apply largest_code.
  assert (HV : forall v, In v (c_data C) -> (0 <= v)%num) by (intros v Hv; apply csr_of_data in Hv; destruct Hv as (_ & i & j & Hi & Hj & <-); now apply H0).
  destruct (set_to_zeroes_spec n C r true false m (csr_of_ok n M) (csr_of_norep n M) Hr (or_intror HV) HL) as [_ H2].
  assert (HR : forall i j, i < n -> j < n -> R i j = if qleb (M i j) (r * m)%num then 0%num else M i j).
  { intros i j Hi Hj. unfold R. fold C. rewrite H2 by assumption. unfold C. rewrite csr_of_value by assumption. now rewrite qabs_pos by now apply H0. }
  split.
  - intros i j Hi Hj. rewrite HR by assumption. destruct (qleb _ _); auto.
  - intros Hr1 (i0 & j0 & Hi0 & Hj0 & Hpos). assert (Hne : c_data C <> []).
    { assert (X : In (M i0 j0) (c_data C)) by (apply csr_of_data; split; [now apply nonzero_of_pos|now exists i0, j0]). intros E. now rewrite E in X. }
    destruct (HL Hne) as (Hmax & w & Hw & Ew). assert (Hw' := Hw). apply csr_of_data in Hw'. destruct Hw' as (Hz & i & j & Hi & Hj & E).
    exists i, j. split; [exact Hi|]. split; [exact Hj|]. rewrite HR by assumption. rewrite E. rewrite (qabs_pos w (HV w Hw)) in Ew. rewrite <- Ew.
    assert (Wp : (0 < w)%num) by (destruct (qle_lt_or_eq _ _ (HV w Hw)) as [L|L]; [exact L|now symmetry in L]).
    destruct (qleb_spec w (r * w)%num) as [L|_]; [|exact Wp]. exfalso.
    assert (X : (0 < (1 - r) * w)%num) by (apply qmult_pos; [revert Hr1; qlra|exact Wp]). replace ((1 - r) * w)%num with (w - r * w)%num in X by ring.
    revert L X. generalize (r * w)%num. qlra.
Qed.

(** the rounded matrix *)
Lemma round_file_spec n c rtol M R : saved n M -> (forall r, rtol = Some r -> (0 <= r)%num) -> round_file n c rtol M = Some R ->
  saved n R /\ (forall i j, i < n -> j < n -> symmetrised M i j = 0%num -> symmetrised R i j = 0%num) /\
  ((forall r, rtol = Some r -> (r < 1)%num) -> (exists i j, i < n /\ j < n /\ (0 < M i j)%num) -> exists i j, i < n /\ j < n /\ (0 < R i j)%num).
Proof.
  intros HM Hr E. unfold round_file in E. destruct rtol as [r|]; [|injection E as <-; auto].
  destruct c; [|discriminate]. injection E as <-. destruct (round_spec n r M (proj1 HM) (Hr r eq_refl)) as [H1 H2]. split; [|split].
  - split; intros i j Hi Hj; [|intros L]; (destruct (H1 i j Hi Hj) as [->| ->]; [try reflexivity; apply Qcle_refl|now apply HM]).
  - intros i j Hi Hj. unfold symmetrised. destruct (i <=? j); intros E; [destruct (H1 i j Hi Hj) as [->| ->]|destruct (H1 j i Hj Hi) as [->| ->]]; auto.
  - intros Hr1 HE. exact (H2 (Hr1 r eq_refl) HE).
Qed.
Lemma full_init_good n p M t : (0 < t)%num -> saved n M -> (forall i j, i < n -> j < n -> nth i p 0%num = 0%num -> symmetrised M i j = 0%num) -> goodp n p (full_init M t).
Proof.
  intros Ht HM Hz. assert (T : (0 < 1 / t)%num) by (unfold Qcdiv; rewrite Qcmult_1_l; now apply inv_pos). split; [|split].
  - intros i j Hi Hj. rewrite (full_init_symmetrised n) by assumption. apply qmult_nonneg; [|now apply Qclt_le_weak]. now apply (symmetrised_nonneg n); [apply HM| |].
  - intros i j Hi Hj. rewrite !(full_init_symmetrised n) by assumption. now rewrite symmetrised_sym.
  - intros i j Hi Hj E. rewrite (full_init_symmetrised n) by assumption. rewrite Hz by assumption. ring.
Qed.

(** * Zero rows *)
Lemma fill_row_spec n p r M i N : goodp n p M -> (0 <= r)%num -> (0 < nth i p 0)%num -> i < n -> fill_row n (Some r) M i = Some N ->
  goodp n p N /\ (forall a b, (a, b) <> (i, i) -> N a b = M a b) /\ ((0 < r)%num -> (0 < N i i)%num).
Proof.
  intros (H0 & Hs & Hz) Hr Hpi Hi E. unfold fill_row in E. destruct (c_data (csr_of n M)) as [|v l] eqn:EC; [discriminate|].
  assert (Hne : v :: l <> []) by discriminate. destruct (FlowGridProofs.list_max_spec (v :: l) Hne) as [HI _].
  set (m := list_max (v :: l)) in *. assert (Hm : (0 < m)%num).
  { rewrite <- EC in HI. apply csr_of_data in HI. destruct HI as (Z1 & a & b & Ha & Hb & E2).
    destruct (qle_lt_or_eq _ _ (H0 a b Ha Hb)) as [L|L]; [now rewrite <- E2|]. exfalso. apply Z1. rewrite <- E2. now symmetry. }
  injection E as <-. split; [split; [|split]|split].
  - intros a b Ha Hb. destruct ((a =? i) && (b =? i)); [|now apply H0]. apply qmult_nonneg; [exact Hr|now apply Qclt_le_weak].
  - intros a b Ha Hb. rewrite (andb_comm (b =? i)). destruct ((a =? i) && (b =? i)); [reflexivity|now apply Hs].
  - intros a b Ha Hb E. destruct (Nat.eqb_spec a i) as [->|_]; [|now apply Hz]. exfalso. rewrite E in Hpi. revert Hpi. apply Qcle_not_lt, Qcle_refl.
  - intros a b Hab. destruct (Nat.eqb_spec a i) as [->|_]; [|reflexivity]. destruct (Nat.eqb_spec b i) as [->|_]; [now exfalso|reflexivity].
  - intros Hr'. rewrite Nat.eqb_refl. cbn [andb]. now apply qmult_pos.
Qed.
Lemma row_positive n (M : mat) i j : (forall j, j < n -> (0 <= M i j)%num) -> j < n -> (0 < M i j)%num -> (0 < sumN n (M i))%num.
Proof.
  intros H Hj Hp. assert (G : (0 <= sumN n (M i))%num) by (apply sumN_nonneg; exact H). destruct (qle_lt_or_eq _ _ G) as [L|L]; [exact L|].
  symmetry in L. rewrite (row_zero_of_sum n M i H L j Hj) in Hp. exfalso. revert Hp. apply Qcle_not_lt, Qcle_refl.
Qed.
(** filling rows keeps the matrix good, adds only to the diagonal, and leaves the rows filled positive *)
Lemma fill_rows_spec n p r l : (0 <= r)%num -> forall M N, (forall i, In i l -> i < n /\ (0 < nth i p 0)%num) -> goodp n p M -> fill_rows n (Some r) M l = Some N ->
  goodp n p N /\ (forall a b, a <> b -> N a b = M a b) /\
  ((0 < r)%num -> forall i, i < n -> (0 < sumN n (M i))%num \/ In i l -> (0 < sumN n (N i))%num).
Proof.
  intros Hr. induction l as [|i l IH]; intros M N Hl HG E.
  - cbn [fill_rows] in E. injection E as <-. split; [exact HG|]. split; [reflexivity|]. intros _ i _ [H|[]]. exact H.
  - cbn [fill_rows] in E. destruct (fill_row n (Some r) M i) as [M'|] eqn:EM; [|discriminate].
    destruct (Hl i (or_introl eq_refl)) as [Hi Hpi]. destruct (fill_row_spec n p r M i M' HG Hr Hpi Hi EM) as (HG' & HO & HP).
    destruct (IH M' N (fun k Hk => Hl k (or_intror Hk)) HG' E) as (G1 & G2 & G3). split; [exact G1|]. split.
    + intros a b Hab. rewrite G2 by exact Hab. apply HO. congruence.
    + intros Hr' k Hk Hor. apply (G3 Hr' k Hk). destruct (Nat.eq_dec k i) as [->|N'].
      * left. apply (row_positive n M' i i); [intros; now apply HG'|exact Hi|now apply HP].
      * destruct Hor as [H|[H|H]]; [left|congruence|now right]. rewrite (sumN_ext n (M' k) (M k)); [exact H|]. intros b _. apply HO. congruence.
Qed.
Lemma zero_rows_In n p M i : In i (zero_rows n p M) <-> i < n /\ (0 < nth i p 0)%num /\ sumN n (M i) = 0%num.
Proof.
  unfold zero_rows. rewrite filter_In, seq_In_iff, andb_true_iff. destruct (qltb_spec 0%num (nth i p 0%num)), (qeqb_spec (sumN n (M i)) 0%num); intuition discriminate.
Qed.
Lemma fill_rows_some n r l : (0 < r)%num -> forall M, (forall i, In i l -> i < n) -> (exists i j, i < n /\ j < n /\ (0 < M i j)%num) ->
  (forall i j, i < n -> j < n -> (0 <= M i j)%num) -> exists N, fill_rows n (Some r) M l = Some N.
Proof.
  intros Hr. induction l as [|i l IH]; intros M Hl HE H0; [now exists M|]. cbn [fill_rows]. unfold fill_row.
  destruct HE as (a & b & Ha & Hb & Hab). destruct (c_data (csr_of n M)) as [|v l'] eqn:EC.
  - exfalso. assert (X : In (M a b) (c_data (csr_of n M))) by (apply csr_of_data; split; [now apply nonzero_of_pos|now exists a, b]). now rewrite EC in X.
  - destruct (FlowGridProofs.list_max_spec (v :: l') ltac:(discriminate)) as [HI _]. set (m := list_max (v :: l')) in *.
    assert (Hm : (0 < m)%num).
    { rewrite <- EC in HI. apply csr_of_data in HI. destruct HI as (Z1 & a' & b' & Ha' & Hb' & E2).
      destruct (qle_lt_or_eq _ _ (H0 a' b' Ha' Hb')) as [L|L]; [now rewrite <- E2|]. exfalso. apply Z1. rewrite <- E2. now symmetry. }
    apply IH; [intros k Hk; apply Hl; now right| |].
    + exists i, i. split; [apply Hl; now left|]. split; [apply Hl; now left|]. rewrite Nat.eqb_refl. cbn [andb]. now apply qmult_pos.
    + intros x y Hx Hy. destruct ((x =? i) && (y =? i)); [apply Qclt_le_weak; now apply qmult_pos|now apply H0].
Qed.

(** * Loading *)
Lemma init_built n p L : length p = n -> goodp n p L -> sumL (fun x => x) p = 1%num ->
  exists A, ac_init (csr_of n L) (PVec p p) true = Some A /\ flows n (csr_of n L) (PVec p p) A /\ positive_entries (csr_of n L) /\
  (forall i j, i < n -> j < n -> toarray A i j = (L i j - nth i p 0 * nth j p 0)%num).
Proof.
  intros Hlen HG Hsum. assert (E : exists A, ac_init (csr_of n L) (PVec p p) true = Some A).
  { unfold ac_init. rewrite Hlen, (csr_size_ok n _ (csr_of_ok n L)), Nat.eqb_refl. eexists. reflexivity. }
  destruct E as (A & E). exists A. split; [exact E|].
  assert (HB : built n (csr_of n L) (PVec p p) true A).
  { split; [apply csr_of_ok|]. split; [|exact E]. intros _ i j Hi Hj. rewrite !csr_of_value by assumption. now apply HG. }
  split; [|split].
  - split; [exact HB|]. split; [apply csr_of_norep|]. split; [split; exact Hsum|]. intros i j Hi Hj. rewrite csr_of_value by assumption. now apply HG.
  - apply csr_of_positive. apply HG.
  - intros i j Hi Hj. unfold toarray. destruct (built_inv _ _ _ _ _ HB) as (_ & Ep & _ & _ & _ & _ & Hv & _). rewrite Ep, Hv by assumption.
    rewrite csr_of_value by assumption. reflexivity.
Qed.

Lemma init_ok_saved n M t p : init_ok n M t p -> saved n M.
Proof. intros (_ & _ & _ & HU & H0 & _). split; [exact H0|]. intros i j _ _. apply HU. Qed.
Lemma load_init_inv n c rtol norm M t p A : init_ok n M t p -> (forall r, rtol = Some r -> (0 <= r)%num) -> load_init n c rtol norm M t p = Some A ->
  exists L, goodp n p L /\ (forall i j, i < n -> j < n -> i <> j -> symmetrised M i j = 0%num -> L i j = 0%num) /\
    flows n (csr_of n L) (PVec p p) A /\ positive_entries (csr_of n L) /\
    (forall i j, i < n -> j < n -> toarray A i j = (L i j - nth i p 0 * nth j p 0)%num).
Proof.
  intros HI Hr E. pose proof HI as (Hn & Ht & Hlen & HU & H0 & Hp & Hsum & Hz). unfold load_init in E.
  destruct (round_file n c rtol M) as [R|] eqn:ER; [|discriminate].
  destruct (round_file_spec n c rtol M R (init_ok_saved n M t p HI) Hr ER) as (HR & HRz & _).
  assert (HF : goodp n p (full_init R t)) by (apply full_init_good; [exact Ht|exact HR|]; intros i j Hi Hj Ei; apply HRz; try assumption; now apply Hz).
  assert (HFz : forall i j, i < n -> j < n -> symmetrised M i j = 0%num -> full_init R t i j = 0%num).
  { intros i j Hi Hj Ei. rewrite (full_init_symmetrised n) by assumption. rewrite HRz by assumption. ring. }
  assert (Done : forall L, goodp n p L -> (forall i j, i < n -> j < n -> i <> j -> symmetrised M i j = 0%num -> L i j = 0%num) -> ac_init (csr_of n L) (PVec p p) true = Some A ->
    exists L, goodp n p L /\ (forall i j, i < n -> j < n -> i <> j -> symmetrised M i j = 0%num -> L i j = 0%num) /\
    flows n (csr_of n L) (PVec p p) A /\ positive_entries (csr_of n L) /\
    (forall i j, i < n -> j < n -> toarray A i j = (L i j - nth i p 0 * nth j p 0)%num)).
  { intros L HL HLz EA. destruct (init_built n p L Hlen HL Hsum) as (A' & EA' & H1 & H2 & H3). rewrite EA in EA'. injection EA' as <-. exists L. auto. }
  destruct norm as [k|]; [|apply (Done _ HF); auto].
  destruct (fill_rows n rtol (full_init R t) (zero_rows n p (full_init R t))) as [G|] eqn:EG; [|discriminate].
  assert (HG : goodp n p G /\ forall a b, a <> b -> G a b = full_init R t a b).
  { destruct rtol as [r|].
    - destruct (fill_rows_spec n p r _ (Hr r eq_refl) _ G (fun i Hi => let H := proj1 (zero_rows_In n p _ i) Hi in conj (proj1 H) (proj1 (proj2 H))) HF EG) as (G1 & G2 & _). auto.
    - destruct (zero_rows n p (full_init R t)); [|discriminate]. injection EG as <-. auto. }
  destruct HG as [HG HGz]. destruct (init_iter_inv n p Hp k G HG) as (H1 & _ & H3).
  apply (Done _ H1); [|exact E]. intros i j Hi Hj Hij Ei. apply H3; try assumption. rewrite HGz by exact Hij. now apply HFz.
Qed.
(** success, with positive rows *)
Lemma load_init_some n c rtol k M t p : init_ok n M t p -> tolerance_ok c rtol -> (exists i j, i < n /\ j < n /\ (0 < M i j)%num) ->
  (rtol = None -> forall i, present n p i -> exists j, j < n /\ (0 < symmetrised M i j)%num) ->
  exists G A, goodp n p G /\ posrows n p G /\ load_init n c rtol (Some k) M t p = Some A /\
    (forall i j, i < n -> j < n -> toarray A i j = (init_iter n k p G i j - nth i p 0 * nth j p 0)%num) /\
    flows n (csr_of n (init_iter n k p G)) (PVec p p) A /\
    (rtol = None -> G = full_init M t).
Proof.
  intros HI Hr HE Hrow. pose proof HI as (Hn & Ht & Hlen & HU & H0 & Hp & Hsum & Hz). unfold load_init.
  assert (T : (0 < 1 / t)%num) by (unfold Qcdiv; rewrite Qcmult_1_l; now apply inv_pos).
  assert (HRf : exists R, round_file n c rtol M = Some R) by (unfold round_file; destruct rtol as [r|]; [destruct Hr as (-> & _)|]; eexists; reflexivity).
  destruct HRf as (R & ER). rewrite ER.
  assert (Hr0 : forall r, rtol = Some r -> (0 <= r)%num) by (intros r ->; now apply Qclt_le_weak, Hr).
  assert (Hr1 : forall r, rtol = Some r -> (r < 1)%num) by (intros r ->; apply Hr).
  destruct (round_file_spec n c rtol M R (init_ok_saved n M t p HI) Hr0 ER) as (HR & HRz & HRe). specialize (HRe Hr1 HE).
  assert (HF : goodp n p (full_init R t)) by (apply full_init_good; [exact Ht|exact HR|]; intros i j Hi Hj Ei; apply HRz; try assumption; now apply Hz).
  assert (HG : exists G, fill_rows n rtol (full_init R t) (zero_rows n p (full_init R t)) = Some G /\ goodp n p G /\ posrows n p G /\ (rtol = None -> G = full_init M t)).
  { destruct rtol as [r|].
    - destruct Hr as (_ & Hrp & _). destruct (fill_rows_some n r (zero_rows n p (full_init R t)) Hrp (full_init R t)) as (G & EG).
      + intros i Hi. now apply zero_rows_In in Hi.
      + destruct HRe as (a & b & Ha & Hb & Hab). destruct (Nat.le_gt_cases a b) as [L|L].
        * exists a, b. split; [exact Ha|]. split; [exact Hb|]. rewrite (full_init_symmetrised n) by assumption. apply qmult_pos; [|exact T]. unfold symmetrised. apply Nat.leb_le in L. now rewrite L.
        * exfalso. rewrite (proj2 HR a b Ha Hb L) in Hab. revert Hab. apply Qcle_not_lt, Qcle_refl.
      + apply HF.
      + exists G. split; [exact EG|].
        destruct (fill_rows_spec n p r _ (Qclt_le_weak _ _ Hrp) _ G (fun i Hi => let H := proj1 (zero_rows_In n p _ i) Hi in conj (proj1 H) (proj1 (proj2 H))) HF EG) as (G1 & _ & G3).
        split; [exact G1|]. split; [|discriminate]. intros i Hi Hpi. apply (G3 Hrp i Hi). rewrite zero_rows_In.
        assert (X : (0 <= sumN n (full_init R t i))%num) by (apply sumN_nonneg; intros; now apply HF).
        destruct (qle_lt_or_eq _ _ X) as [L|L]; [now left|right; auto].
    - injection ER as <-. exists (full_init M t).
      assert (HPR : posrows n p (full_init M t)).
      { intros i Hi Hpi. destruct (Hrow eq_refl i (conj Hi Hpi)) as (j & Hj & Hs). apply (row_positive n _ i j); [intros; now apply HF|exact Hj|].
        rewrite (full_init_symmetrised n) by assumption. now apply qmult_pos. }
      split; [|split; [exact HF|split; [exact HPR|reflexivity]]].
      destruct (zero_rows n p (full_init M t)) as [|i l] eqn:EZ; [reflexivity|]. exfalso. assert (X : In i (zero_rows n p (full_init M t))) by (rewrite EZ; now left).
      apply zero_rows_In in X. destruct X as (Hi & Hpi & X). specialize (HPR i Hi Hpi). rewrite X in HPR. revert HPR. apply Qcle_not_lt, Qcle_refl. }
  destruct HG as (G & EG & G1 & G2 & G3). rewrite EG. destruct (init_built n p (init_iter n k p G) Hlen (proj1 (init_iter_inv n p Hp k G G1)) Hsum) as (A & EA & H1 & _ & H3).
  exists G, A. auto 10.
Qed.
