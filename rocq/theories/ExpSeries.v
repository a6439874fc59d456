(** The exponential of -x (I - T) for a stochastic matrix T over the real numbers. *)
From Coq Require Import Reals Lra Lia.
From Coquelicot Require Import Rcomplements Rbar Hierarchy Series PSeries ElemFct.
From Verif Require Import Base GapModel GapSpec GapProofs ExpModel ExpSpec.
Local Open Scope R_scope.

Lemma rser_ext (a b : nat -> R) (l : R) : (forall k, a k = b k) -> is_series a l -> is_series b l.
Proof. apply is_series_ext. Qed.

(** * Powers *)
Lemma rpow_S n M k i j : rpow n M (S k) i j = rsum n (fun c => M i c * rpow n M k c j).
Proof. reflexivity. Qed.
Lemma reye_left n (A : rmat) i j : (i < n)%nat -> rsum n (fun c => reye i c * A c j) = A i j.
Proof. intros Hi. unfold reye. now rewrite (rsum_delta n i (fun c => A c j)). Qed.
Lemma reye_right n (A : rmat) i j : (j < n)%nat -> rsum n (fun c => A i c * reye c j) = A i j.
Proof.
  intros Hj. rewrite (rsum_ext n _ (fun c => (if Nat.eqb j c then 1 else 0) * A i c)); [now rewrite (rsum_delta n j (A i))|].
  intros c _. unfold reye. rewrite Nat.eqb_sym. ring.
Qed.
Lemma rsum_scal_r n c f : rsum n (fun i => f i * c) = rsum n f * c.
Proof. rewrite Rmult_comm, <- rsum_scal. apply rsum_ext. intros; ring. Qed.
Lemma rmul_assoc n (A B C : rmat) i j : rsum n (fun c => rsum n (fun d => A i d * B d c) * C c j) = rsum n (fun d => A i d * rsum n (fun c => B d c * C c j)).
Proof.
  rewrite (rsum_ext n _ (fun c => rsum n (fun d => A i d * B d c * C c j))) by (intros; now rewrite <- rsum_scal_r).
  rewrite rsum_swap. apply rsum_ext. intros d _. rewrite <- rsum_scal. apply rsum_ext. intros; ring.
Qed.
Lemma rpow_add n M a b i j : (i < n)%nat -> rpow n M (a + b) i j = rsum n (fun c => rpow n M a i c * rpow n M b c j).
Proof.
  revert i. induction a as [|a IH]; intros i Hi.
  - cbn [Nat.add rpow]. now rewrite reye_left.
  - cbn [Nat.add]. rewrite rpow_S. cbn [rpow]. rewrite (rsum_ext n _ (fun c => M i c * rsum n (fun d => rpow n M a c d * rpow n M b d j))) by (intros c Hc; now rewrite IH).
    symmetry. apply (rmul_assoc n M (rpow n M a) (rpow n M b)).
Qed.
Lemma rpow_1 n M i j : (j < n)%nat -> rpow n M 1 i j = M i j.
Proof. intros Hj. cbn [rpow]. now apply reye_right. Qed.
Lemma rpow_Sr n M k i j : (i < n)%nat -> (j < n)%nat -> rpow n M (S k) i j = rsum n (fun c => rpow n M k i c * M c j).
Proof.
  intros Hi Hj. replace (S k) with (k + 1)%nat by lia. rewrite rpow_add by exact Hi. apply rsum_ext. intros c Hc. now rewrite rpow_1.
Qed.
Lemma rpow_ext n M M' : same n M M' -> forall k, same n (rpow n M k) (rpow n M' k).
Proof.
  intros H. induction k as [|k IH]; intros i j Hi Hj; [reflexivity|]. rewrite !rpow_S. apply rsum_ext. intros c Hc. now rewrite H, IH.
Qed.
Lemma expm_ext n M M' F F' : same n M M' -> same n F F' -> expm n M F -> expm n M' F'.
Proof.
  intros HM HF H i j Hi Hj. rewrite <- HF by assumption. apply is_series_Reals. generalize (H i j Hi Hj). intros G. apply is_series_Reals in G.
  revert G. apply rser_ext. intros k. now rewrite (rpow_ext n M M' HM k i j Hi Hj).
Qed.
Lemma expm_unique n M F G : expm n M F -> expm n M G -> same n F G.
Proof. intros H1 H2 i j Hi Hj. exact (uniqueness_sum _ _ _ (H1 i j Hi Hj) (H2 i j Hi Hj)). Qed.

(** * Sums of series *)
Lemma is_series_rsum n (a : nat -> nat -> R) l : (forall i, (i < n)%nat -> is_series (a i) (l i)) -> is_series (fun k => rsum n (fun i => a i k)) (rsum n l).
Proof.
  induction n as [|n IH]; intros H.
  - apply (rser_ext (fun _ => 0)); [intros; reflexivity|]. rewrite rsum_0. apply is_series_Reals. intros e He. exists 0%nat. intros m _.
    unfold R_dist. rewrite sum_cte. rewrite Rmult_0_l, Rminus_0_r, Rabs_R0. exact He.
  - rewrite rsum_S. apply (rser_ext (fun k => plus (rsum n (fun i => a i k)) (a n k))); [intros k; now rewrite rsum_S|].
    apply (is_series_plus (fun k => rsum n (fun i => a i k)) (a n)); [apply IH; auto|apply H; lia].
Qed.
Lemma is_series_nonneg a l : (forall k, 0 <= a k) -> is_series a l -> 0 <= l.
Proof.
  intros Ha H. apply is_series_Reals in H. destruct (Rle_or_lt 0 l) as [G|G]; [exact G|]. exfalso. destruct (H (- l / 2) ltac:(lra)) as [N HN].
  specialize (HN N ltac:(lia)). unfold R_dist in HN. pose proof (cond_pos_sum a N Ha). apply Rabs_def2 in HN. lra.
Qed.
Lemma is_series_ge_term a l m : (forall k, 0 <= a k) -> is_series a l -> a m <= l.
Proof.
  intros Ha H. apply is_series_Reals in H. destruct (Rle_or_lt (a m) l) as [G|G]; [exact G|]. exfalso. destruct (H (a m - l) ltac:(lra)) as [N HN].
  specialize (HN (N + m)%nat ltac:(lia)). unfold R_dist in HN. apply Rabs_def2 in HN.
  assert (a m <= sum_f_R0 a (N + m)).
  { assert (G2 : forall p, (m <= p)%nat -> a m <= sum_f_R0 a p).
    { intros p Hp. induction p as [|p IH]; [replace m with 0%nat by lia; cbn; lra|]. cbn [sum_f_R0]. destruct (Nat.eq_dec m (S p)) as [->|Hne].
      - pose proof (cond_pos_sum a p Ha). lra.
      - specialize (IH ltac:(lia)). specialize (Ha (S p)). lra. }
    apply G2. lia. }
  lra.
Qed.
Lemma is_series_zero l : is_series (fun _ => 0) l -> l = 0.
Proof.
  intros H. apply is_series_Reals in H. assert (G : infinite_sum (fun _ => 0) 0).
  { intros e He. exists 0%nat. intros m _. rewrite sum_cte. unfold R_dist. rewrite Rmult_0_l, Rminus_0_r, Rabs_R0. exact He. }
  exact (uniqueness_sum _ _ _ H G).
Qed.
Lemma exp_series x : is_series (fun k => x ^ k / INR (fact k)) (exp x).
Proof.
  pose proof (is_exp_Reals x) as H. revert H. apply rser_ext. intros k. rewrite pow_n_pow. unfold scal; cbn; unfold mult; cbn. field. apply INR_fact_neq_0.
Qed.
(** Cauchy products of sequences that satisfy a recurrence *)
Definition conv (u v : nat -> R) (k : nat) : R := sum_f_R0 (fun l => u l * v (k - l)%nat) k.
Lemma conv_rec u v w al k : (forall l, INR (S l) * u (S l) = al * u l) -> (forall m, INR (S m) * v (S m) = w m) ->
  INR (S k) * conv u v (S k) = al * conv u v k + conv u w k.
Proof.
  intros Hu Hv. unfold conv.
  assert (E1 : INR (S k) * sum_f_R0 (fun l => u l * v (S k - l)%nat) (S k) =
    sum_f_R0 (fun l => INR l * u l * v (S k - l)%nat) (S k) + sum_f_R0 (fun l => u l * (INR (S k - l) * v (S k - l)%nat)) (S k)).
  { rewrite <- sum_plus, scal_sum. apply sum_eq. intros l Hl. rewrite (minus_INR (S k) l Hl). ring. }
  rewrite E1. f_equal.
  - rewrite decomp_sum by lia. change (INR 0) with 0. cbn [Nat.pred]. rewrite Rmult_0_l, Rmult_0_l, Rplus_0_l, scal_sum. apply sum_eq. intros l Hl.
    rewrite Hu. replace (S k - S l)%nat with (k - l)%nat by lia. ring.
  - rewrite tech5. rewrite Nat.sub_diag. change (INR 0) with 0. rewrite Rmult_0_l, Rmult_0_r, Rplus_0_r. apply sum_eq. intros l Hl.
    replace (S k - l)%nat with (S (k - l)) by lia. now rewrite Hv.
Qed.
Lemma conv_rsum n u (v : nat -> nat -> R) k : conv u (fun m => rsum n (fun i => v i m)) k = rsum n (fun i => conv u (v i) k).
Proof.
  unfold conv. induction n as [|n IH].
  - rewrite rsum_0. rewrite (sum_eq _ (fun _ => 0)) by (intros; rewrite rsum_0; ring). rewrite sum_cte. ring.
  - rewrite rsum_S, <- IH, <- sum_plus. apply sum_eq. intros l _. rewrite rsum_S. ring.
Qed.
Lemma conv_scal u v c k : conv u (fun m => c * v m) k = c * conv u v k.
Proof. unfold conv. rewrite scal_sum. apply sum_eq. intros; ring. Qed.
Lemma conv_ext u u' v v' k : (forall m, u m = u' m) -> (forall m, v m = v' m) -> conv u v k = conv u' v' k.
Proof. intros Hu Hv. unfold conv. apply sum_eq. intros l _. now rewrite Hu, Hv. Qed.

Section Stoch.
Context (n : nat) (T : rmat) (HT : prob_matrix n T).

Lemma pw_prob k : prob_matrix n (rpow n T k).
Proof.
  destruct HT as [H0 H1]. induction k as [|k [I0 I1]]; split.
  - intros i j _ _. cbn. unfold reye. destruct (Nat.eqb i j); lra.
  - intros i Hi. cbn [rpow]. rewrite (rsum_ext n _ (fun j => reye i j * 1)) by (intros; ring). now apply (reye_left n (fun _ _ => 1) i 0%nat).
  - intros i j Hi Hj. rewrite rpow_S. rewrite <- (Rmult_0_r (INR n)), <- rsum_const. apply rsum_le. intros c Hc. apply Rmult_le_pos; auto.
  - intros i Hi. rewrite (rsum_ext n _ (fun j => rsum n (fun c => T i c * rpow n T k c j))) by (intros; apply rpow_S). rewrite rsum_swap.
    rewrite (rsum_ext n _ (T i)); [auto|]. intros c Hc. rewrite rsum_scal, I1 by exact Hc. ring.
Qed.
Lemma rsum_ge_term m f j : (j < m)%nat -> (forall i, (i < m)%nat -> 0 <= f i) -> f j <= rsum m f.
Proof.
  intros Hj Hf. rewrite <- (rsum_delta m j f Hj). apply rsum_le. intros i Hi. specialize (Hf i Hi). destruct (Nat.eqb j i); lra.
Qed.
Lemma pw_le1 k i j : (i < n)%nat -> (j < n)%nat -> rpow n T k i j <= 1.
Proof.
  intros Hi Hj. destruct (pw_prob k) as [I0 I1]. rewrite <- (I1 i Hi). apply rsum_ge_term; auto.
Qed.

(** terms of exp(x T) *)
Definition term (x : R) (i j k : nat) : R := x ^ k / INR (fact k) * rpow n T k i j.
Definition P (x : R) (i j : nat) : R := Series (term x i j).
Lemma term_le x i j k : (i < n)%nat -> (j < n)%nat -> Rabs (term x i j k) <= Rabs x ^ k / INR (fact k).
Proof.
  intros Hi Hj. unfold term. destruct (pw_prob k) as [I0 _]. specialize (I0 i j Hi Hj). pose proof (pw_le1 k i j Hi Hj).
  rewrite Rabs_mult, (Rabs_right (rpow n T k i j)) by lra. unfold Rdiv. rewrite Rabs_mult, <- RPow_abs, (Rabs_right (/ INR (fact k))).
  - rewrite <- (Rmult_1_r (Rabs x ^ k * / INR (fact k))) at 2. apply Rmult_le_compat_l; [|assumption].
    apply Rmult_le_pos; [apply pow_le, Rabs_pos|]. left. apply Rinv_0_lt_compat, INR_fact_lt_0.
  - left. apply Rinv_0_lt_compat, INR_fact_lt_0.
Qed.
Lemma term_abs x i j : (i < n)%nat -> (j < n)%nat -> ex_series (fun k => Rabs (term x i j k)).
Proof.
  intros Hi Hj. apply (@ex_series_le R_AbsRing R_CompleteNormedModule _ (fun k => Rabs x ^ k / INR (fact k))).
  - intros k. unfold norm; cbn; unfold abs; cbn. rewrite Rabs_Rabsolu. now apply term_le.
  - exists (exp (Rabs x)). apply exp_series.
Qed.
Lemma P_series x i j : (i < n)%nat -> (j < n)%nat -> is_series (term x i j) (P x i j).
Proof. intros Hi Hj. apply Series_correct, ex_series_Rabs. now apply term_abs. Qed.
Lemma term_nonneg x i j k : 0 <= x -> (i < n)%nat -> (j < n)%nat -> 0 <= term x i j k.
Proof.
  intros Hx Hi Hj. unfold term. destruct (pw_prob k) as [I0 _]. apply Rmult_le_pos; [|now apply I0].
  apply Rmult_le_pos; [now apply pow_le|]. left. apply Rinv_0_lt_compat, INR_fact_lt_0.
Qed.
Lemma P_nonneg x i j : 0 <= x -> (i < n)%nat -> (j < n)%nat -> 0 <= P x i j.
Proof. intros Hx Hi Hj. apply (is_series_nonneg (term x i j)); [intros; now apply term_nonneg|now apply P_series]. Qed.
Lemma P_sum x i : (i < n)%nat -> rsum n (P x i) = exp x.
Proof.
  intros Hi. assert (H : is_series (fun k => rsum n (fun j => term x i j k)) (rsum n (P x i))).
  { apply (is_series_rsum n (fun j => term x i j) (P x i)). intros j Hj. now apply P_series. }
  apply is_series_Reals in H. assert (G : is_series (fun k => rsum n (fun j => term x i j k)) (exp x)).
  { generalize (exp_series x). apply rser_ext. intros k. unfold term. rewrite rsum_scal. destruct (pw_prob k) as [_ I1]. rewrite I1 by exact Hi. ring. }
  apply is_series_Reals in G. exact (uniqueness_sum _ _ _ H G).
Qed.

(** M = -x (I - T) *)
Definition gen (x : R) : rmat := fun i j => - x * (reye i j - T i j).
Lemma fact_rec k a b : b = INR (S k) * a -> b / INR (fact (S k)) = a / INR (fact k).
Proof. intros ->. cbn [fact]. change (fact k + k * fact k)%nat with (S k * fact k)%nat. rewrite mult_INR. field. split; [apply INR_fact_neq_0|apply not_0_INR; lia]. Qed.
Lemma gen_terms x k : forall i j, (i < n)%nat -> (j < n)%nat ->
  rpow n (gen x) k i j / INR (fact k) = conv (fun l => (- x) ^ l / INR (fact l)) (term x i j) k.
Proof.
  assert (Hu : forall l, INR (S l) * ((- x) ^ S l / INR (fact (S l))) = - x * ((- x) ^ l / INR (fact l))).
  { intros l. cbn [fact pow]. change (fact l + l * fact l)%nat with (S l * fact l)%nat. rewrite mult_INR. field. split; [apply INR_fact_neq_0|apply not_0_INR; lia]. }
  assert (Hv : forall i j m, INR (S m) * term x i j (S m) = rsum n (fun c => x * T i c * term x c j m)).
  { intros i j m. unfold term at 1. rewrite rpow_S. cbn [fact pow]. change (fact m + m * fact m)%nat with (S m * fact m)%nat. rewrite mult_INR.
    rewrite (rsum_ext n (fun c => x * T i c * term x c j m) (fun c => (x * (x ^ m / INR (fact m))) * (T i c * rpow n T m c j))) by (intros; unfold term; ring).
    rewrite rsum_scal. field. split; [apply INR_fact_neq_0|apply not_0_INR; lia]. }
  induction k as [|k IH]; intros i j Hi Hj.
  - unfold conv, term. cbn. field.
  - assert (Hk : INR (S k) <> 0) by (apply not_0_INR; lia).
    apply (Rmult_eq_reg_l (INR (S k))); [|exact Hk].
    rewrite (conv_rec _ (term x i j) (fun m => rsum n (fun c => x * T i c * term x c j m)) (- x) k Hu (Hv i j)).
    rewrite (conv_rsum n _ (fun c m => x * T i c * term x c j m)).
    rewrite (rsum_ext n _ (fun c => x * T i c * (rpow n (gen x) k c j / INR (fact k)))).
    2:{ intros c Hc. rewrite (conv_scal _ (term x c j) (x * T i c)). now rewrite IH. }
    rewrite <- (IH i j Hi Hj).
    transitivity (rpow n (gen x) (S k) i j / INR (fact k)).
    { cbn [fact]. change (fact k + k * fact k)%nat with (S k * fact k)%nat. rewrite mult_INR. field. split; [apply INR_fact_neq_0|exact Hk]. }
    rewrite rpow_S.
    rewrite (rsum_ext n (fun c => gen x i c * rpow n (gen x) k c j) (fun c => (- x) * (reye i c * rpow n (gen x) k c j) + x * T i c * rpow n (gen x) k c j)) by (intros; unfold gen; ring).
    rewrite rsum_add, rsum_scal, reye_left by exact Hi.
    rewrite (rsum_ext n (fun c => x * T i c * (rpow n (gen x) k c j / INR (fact k))) (fun c => / INR (fact k) * (x * T i c * rpow n (gen x) k c j))) by (intros; unfold Rdiv; ring).
    rewrite rsum_scal. unfold Rdiv. ring.
Qed.
Definition Ex (x : R) : rmat := fun i j => exp (- x) * P x i j.
Lemma Ex_expm x : expm n (gen x) (Ex x).
Proof.
  intros i j Hi Hj. apply is_series_Reals. unfold Ex.
  apply (rser_ext (fun k => sum_f_R0 (fun l => (- x) ^ l / INR (fact l) * term x i j (k - l)) k)).
  - intros k. now rewrite gen_terms.
  - apply (is_series_mult (fun l => (- x) ^ l / INR (fact l)) (term x i j)); [apply exp_series|now apply P_series| |now apply term_abs].
    exists (exp (Rabs (- x))). generalize (exp_series (Rabs (- x))). apply rser_ext. intros k. unfold Rdiv. rewrite Rabs_mult, RPow_abs. f_equal. symmetry. apply Rabs_right. left. apply Rinv_0_lt_compat, INR_fact_lt_0.
Qed.
Lemma Ex_prob x : 0 <= x -> prob_matrix n (Ex x).
Proof.
  intros Hx. split.
  - intros i j Hi Hj. apply Rmult_le_pos; [left; apply exp_pos|now apply P_nonneg].
  - intros i Hi. unfold Ex. rewrite rsum_scal, P_sum by exact Hi. rewrite <- exp_plus. rewrite Rplus_opp_l. apply exp_0.
Qed.

(** ** Two steps after each other *)
Lemma binom_terms x y k : sum_f_R0 (fun l => x ^ l / INR (fact l) * (y ^ (k - l) / INR (fact (k - l)))) k = (x + y) ^ k / INR (fact k).
Proof.
  rewrite binomial. unfold Rdiv at 3. rewrite Rmult_comm, scal_sum. apply sum_eq. intros l Hl. unfold Binomial.C. field. repeat split; apply INR_fact_neq_0.
Qed.
Lemma P_plus x y i j : 0 <= x -> 0 <= y -> (i < n)%nat -> (j < n)%nat -> P (x + y) i j = rsum n (fun c => P x i c * P y c j).
Proof.
  intros Hx Hy Hi Hj. assert (H : is_series (fun k => rsum n (fun c => conv (term x i c) (term y c j) k)) (rsum n (fun c => P x i c * P y c j))).
  { apply (is_series_rsum n (fun c k => conv (term x i c) (term y c j) k)). intros c Hc.
    apply (is_series_mult_pos (term x i c) (term y c j)); [now apply P_series|now apply P_series|intros; now apply term_nonneg|intros; now apply term_nonneg]. }
  assert (G : is_series (fun k => rsum n (fun c => conv (term x i c) (term y c j) k)) (P (x + y) i j)).
  { generalize (P_series (x + y) i j Hi Hj). apply rser_ext. intros k. unfold term at 1. rewrite <- (binom_terms x y k), Rmult_comm, scal_sum. unfold conv.
    assert (Sw : forall m f, rsum n (fun c => sum_f_R0 (f c) m) = sum_f_R0 (fun l => rsum n (fun c => f c l)) m).
    { intros m f. induction m as [|m IHm]; cbn [sum_f_R0]; [reflexivity|]. now rewrite rsum_add, IHm. }
    rewrite Sw. apply sum_eq. intros l Hl. unfold term. rewrite (rsum_ext n _ (fun c => (x ^ l / INR (fact l) * (y ^ (k - l) / INR (fact (k - l)))) * (rpow n T l i c * rpow n T (k - l) c j))) by (intros; ring).
    rewrite rsum_scal, <- rpow_add by exact Hi. now replace (l + (k - l))%nat with k by lia. }
  apply is_series_Reals in H. apply is_series_Reals in G. exact (uniqueness_sum _ _ _ G H).
Qed.
Lemma Ex_plus x y : 0 <= x -> 0 <= y -> same n (Ex (x + y)) (times_matrix n (Ex x) (Ex y)).
Proof.
  intros Hx Hy i j Hi Hj. unfold Ex, times_matrix. rewrite P_plus by assumption. rewrite <- rsum_scal. apply rsum_ext. intros c _.
  replace (- (x + y)) with (- x + - y) by ring. rewrite exp_plus. ring.
Qed.
Lemma P_0 i j : (i < n)%nat -> (j < n)%nat -> P 0 i j = reye i j.
Proof.
  intros Hi Hj. assert (H : is_series (fun k => (if Nat.eqb k 0 then reye i j else 0)) (P 0 i j)).
  { generalize (P_series 0 i j Hi Hj). apply rser_ext. intros k. unfold term. destruct k as [|k]; cbn [Nat.eqb]; [cbn; field|]. rewrite pow_i by lia. unfold Rdiv. ring. }
  apply is_series_Reals in H. assert (G : infinite_sum (fun k => (if Nat.eqb k 0 then reye i j else 0)) (reye i j)).
  { intros e He. exists 0%nat. intros m _. assert (E : sum_f_R0 (fun k => if Nat.eqb k 0 then reye i j else 0) m = reye i j).
    { induction m as [|m IH]; cbn [sum_f_R0]; [reflexivity|]. rewrite IH. cbn [Nat.eqb]. ring. }
    rewrite E. unfold R_dist. rewrite Rminus_diag_eq, Rabs_R0; [exact He|reflexivity]. }
  exact (uniqueness_sum _ _ _ H G).
Qed.

(** ** Nodes that are reached *)
Lemma pw_reaches k : forall i j, (i < n)%nat -> (j < n)%nat -> 0 < rpow n T k i j -> reaches n (fun a b => 0 < T a b) i j.
Proof.
  induction k as [|k IH]; intros i j Hi Hj H.
  - cbn in H. unfold reye in H. destruct (Nat.eqb_spec i j) as [->|]; [now constructor|lra].
  - rewrite rpow_S in H. assert (G : exists c, (c < n)%nat /\ 0 < T i c * rpow n T k c j).
    { destruct (pw_prob k) as [I0 _]. destruct HT as [H0 _]. apply Classical_Prop.NNPP. intros Hn. assert (HZ : rsum n (fun c => T i c * rpow n T k c j) <= rsum n (fun _ => 0)).
      { apply rsum_le. intros c Hc. apply Rnot_lt_le. intros Hl. apply Hn. now exists c. }
      rewrite rsum_const, Rmult_0_r in HZ. lra. }
    destruct G as (c & Hc & G). destruct (pw_prob k) as [I0 _]. destruct HT as [H0 _]. specialize (I0 c j Hc Hj). specialize (H0 i c Hi Hc).
    assert (0 < T i c) by (apply Rnot_le_lt; intros K; assert (E : T i c = 0) by lra; rewrite E in G; lra).
    assert (0 < rpow n T k c j) by (apply Rnot_le_lt; intros K; assert (E : rpow n T k c j = 0) by lra; rewrite E in G; lra).
    eapply reaches_step; [exact Hi|exact Hc|assumption|]. now apply IH.
Qed.
Lemma reaches_pw i j : reaches n (fun a b => 0 < T a b) i j -> exists k, 0 < rpow n T k i j.
Proof.
  induction 1 as [i Hi|i j k Hi Hj Hs Hr [m IH]].
  - exists 0%nat. cbn. unfold reye. rewrite Nat.eqb_refl. lra.
  - exists (S m). rewrite rpow_S. assert (Hk : (k < n)%nat) by (clear - Hr; induction Hr; auto).
    apply Rlt_le_trans with (T i j * rpow n T m j k); [now apply Rmult_lt_0_compat|].
    apply (rsum_ge_term n (fun c => T i c * rpow n T m c k) j Hj). intros c Hc. destruct (pw_prob m) as [I0 _]. destruct HT as [H0 _]. apply Rmult_le_pos; auto.
Qed.
Lemma Ex_reaches x i j : 0 < x -> (i < n)%nat -> (j < n)%nat -> (0 < Ex x i j <-> reaches n (fun a b => 0 < T a b) i j).
Proof.
  intros Hx Hi Hj. unfold Ex. split.
  - intros H. apply Classical_Prop.NNPP. intros Hn. assert (E : P x i j = 0).
    { apply is_series_zero. generalize (P_series x i j Hi Hj). apply rser_ext. intros k. unfold term. destruct (pw_prob k) as [I0 _]. specialize (I0 i j Hi Hj).
      destruct (Req_dec (rpow n T k i j) 0) as [->|Hd]; [ring|]. exfalso. apply Hn. apply (pw_reaches k); [assumption|assumption|lra]. }
    rewrite E in H. lra.
  - intros H. destruct (reaches_pw i j H) as [k Hk]. apply Rmult_lt_0_compat; [apply exp_pos|]. apply Rlt_le_trans with (term x i j k).
    + unfold term. apply Rmult_lt_0_compat; [|exact Hk]. apply Rmult_lt_0_compat; [now apply pow_lt|apply Rinv_0_lt_compat, INR_fact_lt_0].
    + apply (is_series_ge_term (term x i j)); [intros; apply term_nonneg; lra || assumption|now apply P_series].
Qed.

(** ** Reversibility *)
Lemma pw_rev d : (forall i j, (i < n)%nat -> (j < n)%nat -> d i * T i j = d j * T j i) -> forall k i j, (i < n)%nat -> (j < n)%nat -> d i * rpow n T k i j = d j * rpow n T k j i.
Proof.
  intros Hd. induction k as [|k IH]; intros i j Hi Hj.
  - cbn. unfold reye. rewrite (Nat.eqb_sym j i). destruct (Nat.eqb_spec i j) as [->|]; ring.
  - rewrite rpow_S, (rpow_Sr n T k j i Hj Hi), <- !rsum_scal. apply rsum_ext. intros c Hc.
    replace (d i * (T i c * rpow n T k c j)) with ((d i * T i c) * rpow n T k c j) by ring. rewrite (Hd i c Hi Hc).
    replace (d c * T c i * rpow n T k c j) with (T c i * (d c * rpow n T k c j)) by ring. rewrite (IH c j Hc Hj). ring.
Qed.
Lemma Ex_rev d x i j : (forall i j, (i < n)%nat -> (j < n)%nat -> d i * T i j = d j * T j i) -> (i < n)%nat -> (j < n)%nat -> d i * Ex x i j = d j * Ex x j i.
Proof.
  intros Hd Hi Hj. unfold Ex. assert (H1 : is_series (fun k => scal (d i) (term x i j k)) (scal (d i) (P x i j))) by (apply (is_series_scal (d i) (term x i j)); now apply P_series).
  assert (H2 : is_series (fun k => scal (d j) (term x j i k)) (scal (d j) (P x j i))) by (apply (is_series_scal (d j) (term x j i)); now apply P_series).
  assert (H3 : is_series (fun k => scal (d j) (term x j i k)) (scal (d i) (P x i j))).
  { revert H1. apply rser_ext. intros k. unfold scal; cbn; unfold mult; cbn. unfold term.
    replace (d i * (x ^ k / INR (fact k) * rpow n T k i j)) with (x ^ k / INR (fact k) * (d i * rpow n T k i j)) by ring. rewrite (pw_rev d Hd k i j Hi Hj). ring. }
  apply is_series_Reals in H2. apply is_series_Reals in H3. pose proof (uniqueness_sum _ _ _ H3 H2) as E. unfold scal in E; cbn in E; unfold mult in E; cbn in E.
  replace (d i * (exp (- x) * P x i j)) with (exp (- x) * (d i * P x i j)) by ring. rewrite E. ring.
Qed.

(** ** The linear approximation *)
Lemma Ex_linear x i : 0 <= x -> (i < n)%nat -> difference n (Ex x) (fun i j => (1 - x) * reye i j + x * T i j) i <= 2 * x * x.
Proof.
  intros Hx Hi. set (R2 := fun j => P x i j - reye i j - x * T i j).
  assert (HR : forall j, (j < n)%nat -> 0 <= R2 j).
  { intros j Hj. unfold R2. assert (H : is_series (fun k => match k with 0%nat | 1%nat => 0 | _ => term x i j k end) (R2 j)).
    { pose proof (P_series x i j Hi Hj) as H. apply is_series_Reals in H. apply is_series_Reals. intros e He. destruct (H e He) as [N HN]. exists (S N). intros m Hm.
      specialize (HN m ltac:(lia)). assert (E : forall p, sum_f_R0 (fun k => match k with 0%nat | 1%nat => 0 | _ => term x i j k end) (S p) = sum_f_R0 (term x i j) (S p) - reye i j - x * T i j).
      { induction p as [|p IH]; [|cbn [sum_f_R0] in *; rewrite IH; ring]. cbn [sum_f_R0]. unfold term. rewrite rpow_1 by exact Hj. cbn. field. }
      destruct m as [|m]; [lia|]. rewrite E. unfold R2, R_dist in *. replace (sum_f_R0 (term x i j) (S m) - reye i j - x * T i j - (P x i j - reye i j - x * T i j)) with (sum_f_R0 (term x i j) (S m) - P x i j) by ring. exact HN. }
    apply (is_series_nonneg _ _) with (2 := H). intros [|[|k]]; [lra|lra|now apply term_nonneg]. }
  assert (HS : rsum n R2 = exp x - 1 - x).
  { unfold R2. rewrite rsum_sub, rsum_sub, rsum_scal, P_sum by exact Hi. destruct HT as [_ H1]. rewrite H1 by exact Hi. destruct (pw_prob 0) as [_ J1]. cbn [rpow] in J1. rewrite J1 by exact Hi. ring. }
  assert (H1x : 1 - x <= exp (- x)) by (pose proof (exp_ineq1_le (- x)); lra).
  assert (Hex : exp (- x) <= 1) by (destruct (Req_dec x 0) as [->|]; [rewrite Ropp_0, exp_0; lra|left; rewrite <- exp_0; apply exp_increasing; lra]).
  assert (HXX : exp (- x) * exp x = 1) by (rewrite <- exp_plus, Rplus_opp_l; apply exp_0).
  unfold difference. apply Rle_trans with (rsum n (fun j => (exp (- x) - 1 + x) * reye i j + x * (1 - exp (- x)) * T i j + exp (- x) * R2 j)).
  - apply rsum_le. intros j Hj. specialize (HR j Hj). destruct HT as [H0 _]. specialize (H0 i j Hi Hj). destruct (pw_prob 0) as [J0 _]. specialize (J0 i j Hi Hj). cbn [rpow] in J0.
    assert (E : Ex x i j - ((1 - x) * reye i j + x * T i j) = (exp (- x) - 1 + x) * reye i j - x * (1 - exp (- x)) * T i j + exp (- x) * R2 j) by (unfold Ex, R2; ring).
    rewrite E. assert (0 <= (exp (- x) - 1 + x) * reye i j) by (apply Rmult_le_pos; lra).
    assert (0 <= x * (1 - exp (- x)) * T i j) by (apply Rmult_le_pos; [apply Rmult_le_pos; lra|lra]).
    assert (0 <= exp (- x) * R2 j) by (apply Rmult_le_pos; [left; apply exp_pos|exact HR]).
    apply Rabs_le. lra.
  - rewrite !rsum_add, !rsum_scal, HS. destruct HT as [_ H1]. rewrite H1 by exact Hi. destruct (pw_prob 0) as [_ J1]. cbn [rpow] in J1. rewrite J1 by exact Hi.
    replace ((exp (- x) - 1 + x) * 1 + x * (1 - exp (- x)) * 1 + exp (- x) * (exp x - 1 - x)) with (exp (- x) * exp x - 1 + 2 * x * (1 - exp (- x))) by ring.
    rewrite HXX. assert (x * (1 - exp (- x)) <= x * x) by (apply Rmult_le_compat_l; lra). lra.
Qed.
End Stoch.
