(** Errors of the matrices between events: C203. *)
From Verif Require Import Base PartitionModel PartitionSpec PartitionProofs LouvainModel LouvainProofs SparseModel EventsModel EventsSpec TransModel TransSpec MatProofs
  FlowModel FlowSpec FlowProofs FlowGridProofs FlowProps FlowStabProofs FlowStabProps.

(** ** Vocabulary *)
(** distance of the distributions after a step from i *)
Definition row_distance (n : nat) (A B : mat) (i : nat) : num := sumN n (fun j => qabs (A i j - B i j)%num).
Definition within_error (n : nat) (e : num) (A B : mat) : Prop := forall i, i < n -> (row_distance n A B i <= e)%num.
(** no partition of the n nodes is more stable *)
Definition best (n : nat) (A : mat) (q : partition) : Prop := forall q', valid q' -> num_nodes q' = n -> (compute_stability A q' <= compute_stability A q)%num.

(** ** Absolute values *)
Lemma le_qabs x : (x <= qabs x)%num.
Proof. unfold qabs. destruct (qltb_spec x 0%num) as [H|H]; [qlra|apply Qcle_refl]. Qed.
Lemma opp_le_qabs x : (- x <= qabs x)%num.
Proof. unfold qabs. destruct (qltb_spec x 0%num) as [H|H]; [apply Qcle_refl|]. apply Qcnot_lt_le in H. qlra. Qed.
Lemma qabs_least x e : (x <= e)%num -> (- x <= e)%num -> (qabs x <= e)%num.
Proof. intros H1 H2. unfold qabs. now destruct (qltb x 0%num). Qed.
Lemma qabs_nonnegative x : (0 <= qabs x)%num.
Proof. pose proof (le_qabs x). pose proof (opp_le_qabs x). qlra. Qed.
Lemma qabs_sym_le a b : (qabs (a - b) <= qabs (b - a))%num.
Proof. apply qabs_least; [replace (a - b)%num with (- (b - a))%num by ring; apply opp_le_qabs|]. replace (- (a - b))%num with (b - a)%num by ring. apply le_qabs. Qed.
Lemma qabs_sym a b : qabs (a - b)%num = qabs (b - a)%num.
Proof. apply Qcle_antisym; apply qabs_sym_le. Qed.
Lemma qabs_sumL {X} (f : X -> num) l : (qabs (sumL f l) <= sumL (fun a => qabs (f a)) l)%num.
Proof.
  apply qabs_least; [apply sumL_le; intros a _; apply le_qabs|]. rewrite <- sumL_opp. apply sumL_le. intros a _. apply opp_le_qabs.
Qed.
Lemma qabs_scale a x : (0 <= a)%num -> qabs (a * x)%num = (a * qabs x)%num.
Proof.
  intros Ha. unfold qabs. destruct (qltb_spec x 0%num) as [Hx|Hx], (qltb_spec (a * x)%num 0%num) as [Hy|Hy]; try ring.
  - apply Qcnot_lt_le in Hy. assert (H : (0 <= a * - x)%num) by (apply qmult_nonneg; [exact Ha|qlra]). replace (a * - x)%num with (- (a * x))%num in * by ring. apply Qcle_antisym; qlra.
  - apply Qcnot_lt_le in Hx. exfalso. apply (Qclt_not_le _ _ Hy). now apply qmult_nonneg.
Qed.
Lemma qabs_bounded a x : (- (1) <= a)%num -> (a <= 1)%num -> (a * x <= qabs x)%num.
Proof.
  intros H1 H2. unfold qabs. destruct (qltb_spec x 0%num) as [Hx|Hx].
  - assert (H : (0 <= (a + 1) * - x)%num) by (apply qmult_nonneg; qlra). replace ((a + 1) * - x)%num with (- (a * x) - x)%num in H by ring. revert H. generalize (a * x)%num. intros; qlra.
  - apply Qcnot_lt_le in Hx. assert (H : (0 <= (1 - a) * x)%num) by (apply qmult_nonneg; qlra). replace ((1 - a) * x)%num with (x - a * x)%num in H by ring. revert H. generalize (a * x)%num. intros; qlra.
Qed.

(** ** One node at the end of the flow *)
(** [x c]: probability to come from the cluster c *)
Lemma mixing_gap {X} (cl : list X) (x y : X -> num) : (forall c, In c cl -> (0 <= x c)%num) -> (forall c, In c cl -> (0 <= y c)%num) ->
  (sumL (fun c => over (x c) (sumL x cl)) cl - sumL (fun c => over (y c) (sumL y cl)) cl <= sumL (fun c => qabs (x c - y c)) cl)%num.
Proof.
  intros Hx Hy. set (s := sumL x cl). set (s' := sumL y cl).
  assert (Hs : (0 <= s)%num) by now apply sumL_nonneg. assert (Hs' : (0 <= s')%num) by now apply sumL_nonneg.
  assert (Ho : forall a e, (0 <= e)%num -> (0 <= over a e)%num). { intros a e He. unfold over. destruct (qeqb_spec e 0%num) as [E|E]; [apply Qcle_refl|]. apply qdiv_nonneg; [apply qsq_nonneg|]. destruct (qle_lt_or_eq _ _ He) as [G|G]; [exact G|congruence]. }
  assert (HR : (0 <= sumL (fun c => qabs (x c - y c)) cl)%num) by (apply sumL_nonneg; intros c _; apply qabs_nonnegative).
  assert (HY : (0 <= sumL (fun c => over (y c) s') cl)%num) by (apply sumL_nonneg; intros c _; now apply Ho).
  destruct (qle_lt_or_eq _ _ Hs) as [Hpos|Hzero].
  2:{ assert (E : sumL (fun c => over (x c) s) cl = 0%num) by (apply sumL_zero; intros c _; rewrite <- Hzero; unfold over; now destruct (qeqb_spec 0%num 0%num)). rewrite E. revert HR HY. generalize (sumL (fun c => qabs (x c - y c)%num) cl) (sumL (fun c => over (y c) s') cl). intros; qlra. }
  assert (Hne : s <> 0%num) by (intros E; rewrite E in Hpos; exact (Qclt_not_le _ _ Hpos (Qcle_refl _))).
  set (u := fun c => (x c / s)%num). set (U := sumL (fun c => u c * u c)%num cl).
  assert (Hu : forall c, In c cl -> (0 <= u c)%num) by (intros c Hc; apply qdiv_nonneg; [now apply Hx|exact Hpos]).
  assert (Su : sumL u cl = 1%num). { unfold u, Qcdiv. rewrite sumL_scal_r. fold s. field. exact Hne. }
  assert (Hu1 : forall c, In c cl -> (u c <= 1)%num) by (intros c Hc; rewrite <- Su; now apply (sumL_nonneg_term u)).
  assert (HU1 : (U <= 1)%num). { rewrite <- Su. apply sumL_le. intros c Hc. specialize (Hu c Hc). specialize (Hu1 c Hc). assert (H : (0 <= u c * (1 - u c))%num) by (apply qmult_nonneg; [exact Hu|qlra]). replace (u c * (1 - u c))%num with (u c - u c * u c)%num in H by ring. revert H. generalize (u c * u c)%num. intros; qlra. }
  assert (HU : forall c, In c cl -> (u c * u c <= U)%num) by (intros c Hc; apply (sumL_nonneg_term (fun c => u c * u c)%num); [intros d _; apply qsq_nonneg|exact Hc]).
  assert (EA : sumL (fun c => over (x c) s) cl = sumL (fun c => (u c + u c - U) * x c)%num cl).
  { transitivity (sumL (fun c => (1 + 1) * s * (u c * u c) - U * x c)%num cl).
    - rewrite sumL_sub, !sumL_scal_l. fold s U. transitivity (sumL (fun c => s * (u c * u c))%num cl); [|rewrite sumL_scal_l; fold U; ring]. apply sumL_ext. intros c _. unfold over. destruct (qeqb_spec s 0%num) as [E|_]; [contradiction|]. unfold u. field. exact Hne.
    - apply sumL_ext. intros c _. unfold u at 1 2. unfold u. field. exact Hne. }
  assert (EB : (sumL (fun c => (u c + u c - U) * y c)%num cl <= sumL (fun c => over (y c) s') cl)%num).
  { destruct (qle_lt_or_eq _ _ Hs') as [Hpos'|Hzero'].
    2:{ replace (sumL (fun c => (u c + u c - U) * y c)%num cl) with 0%num; [exact HY|]. symmetry. apply sumL_zero. intros c Hc. assert (E : y c = 0%num); [|rewrite E; ring]. apply Qcle_antisym; [|now apply Hy]. rewrite Hzero'. now apply (sumL_nonneg_term y). }
    assert (Hne' : s' <> 0%num) by (intros E; rewrite E in Hpos'; exact (Qclt_not_le _ _ Hpos' (Qcle_refl _))).
    assert (G : (0 <= sumL (fun c => over (y c) s' - (u c + u c) * y c + u c * u c * s') cl)%num).
    { apply sumL_nonneg. intros c _. unfold over. destruct (qeqb_spec s' 0%num) as [E|_]; [contradiction|]. replace (y c * y c / s' - (u c + u c) * y c + u c * u c * s')%num with ((y c - u c * s') * (y c - u c * s') / s')%num by (field; exact Hne'). apply qdiv_nonneg; [apply qsq_nonneg|exact Hpos']. }
    rewrite sumL_add, sumL_sub, sumL_scal_r in G. fold U in G.
    replace (sumL (fun c => (u c + u c - U) * y c)%num cl) with (sumL (fun c => (u c + u c) * y c)%num cl - U * s')%num.
    - revert G. generalize (sumL (fun c => over (y c) s') cl) (sumL (fun c => ((u c + u c) * y c)%num) cl) (U * s')%num. intros; qlra.
    - unfold s'. rewrite <- sumL_scal_l, <- sumL_sub. apply sumL_ext. intros c _. ring. }
  rewrite EA. apply Qcle_trans with (sumL (fun c => (u c + u c - U) * (x c - y c))%num cl).
  - replace (sumL (fun c => (u c + u c - U) * (x c - y c))%num cl) with (sumL (fun c => (u c + u c - U) * x c)%num cl - sumL (fun c => (u c + u c - U) * y c)%num cl)%num by (rewrite <- sumL_sub; apply sumL_ext; intros c _; ring).
    revert EB. generalize (sumL (fun c => over (y c) s') cl) (sumL (fun c => ((u c + u c - U) * y c)%num) cl) (sumL (fun c => ((u c + u c - U) * x c)%num) cl). intros; qlra.
  - apply sumL_le. intros c Hc. specialize (Hu c Hc). specialize (Hu1 c Hc). specialize (HU c Hc). apply qabs_bounded.
    + revert HU1 Hu. generalize U (u c). intros; qlra.
    + assert (H : (0 <= (1 - u c) * (1 - u c))%num) by apply qsq_nonneg. replace ((1 - u c) * (1 - u c))%num with (1 - (u c + u c) + u c * u c)%num in H by ring. revert H HU. generalize (u c * u c)%num. intros; qlra.
Qed.

(** ** One flow *)
Lemma cov_gap n p T T' e q : distribution n p -> stochastic n T -> stochastic n T' -> within_error n e T T' -> valid q -> num_nodes q = n ->
  (compute_stability (flow_cov n p T) q - compute_stability (flow_cov n p T') q <= e)%num.
Proof.
  intros Hp HT HT' He Hq Hn. set (cl := cluster_list q). assert (HC : Permutation (concat cl) (seq 0 n)) by (unfold cl; rewrite <- Hn; now apply valid_perm).
  assert (HB : forall A, compute_stability (flow_cov n p A) q = (sumN n (fun k => sumL (fun c => over (from p c A k) (at_end n p A k)) cl) - sumL (fun c => sumL p c * sumL p c) cl)%num).
  { intros A. rewrite stability_eq. fold cl. transitivity (sumL (fun c => sumN n (fun k => over (from p c A k) (at_end n p A k)) - sumL p c * sumL p c)%num cl); [apply sumL_ext; intros c _; apply block_cov|]. rewrite sumL_sub. f_equal. unfold sumN. apply sumL_swap. }
  rewrite !HB. match goal with |- (?a - ?z - (?b - ?z) <= _)%num => replace (a - z - (b - z))%num with (a - b)%num by ring end. rewrite <- sumN_sub.
  assert (HA : forall A k, at_end n p A k = sumL (fun c => from p c A k) cl) by (intros A k; symmetry; exact (cover_sum n cl HC (fun i => p i * A i k)%num)).
  apply Qcle_trans with (sumN n (fun k => sumN n (fun i => p i * qabs (T i k - T' i k)%num)%num)).
  - apply sumL_le. intros k Hk. apply seq_In_iff in Hk. rewrite !HA.
    eapply Qcle_trans; [apply (mixing_gap cl (fun c => from p c T k) (fun c => from p c T' k)); intros c Hc; apply (from_nonneg n p Hp); try assumption; intros i Hi; now apply (cover_below n cl HC c)|].
    rewrite <- (cover_sum n cl HC). apply sumL_le. intros c Hc. unfold from. rewrite <- sumL_sub. eapply Qcle_trans; [apply qabs_sumL|]. apply sumL_le. intros i Hi.
    replace (p i * T i k - p i * T' i k)%num with (p i * (T i k - T' i k))%num by ring. rewrite qabs_scale; [apply Qcle_refl|]. apply Hp. now apply (cover_below n cl HC c).
  - unfold sumN. rewrite sumL_swap. apply Qcle_trans with (sumL (fun i => p i * e)%num (seq 0 n)).
    + apply sumL_le. intros i Hi. apply seq_In_iff in Hi. rewrite sumL_scal_l. assert (H := He i Hi). assert (Hi0 := proj1 Hp i Hi). unfold row_distance, sumN in H. revert H Hi0. generalize (sumL (fun j => qabs (T i j - T' i j)%num) (seq 0 n)) (p i). intros a b H H0.
      assert (G : (0 <= b * (e - a))%num) by (apply qmult_nonneg; [exact H0|qlra]). replace (b * (e - a))%num with (b * e - b * a)%num in G by ring. revert G. generalize (b * e)%num (b * a)%num. intros; qlra.
    + rewrite sumL_scal_r. replace (sumL p (seq 0 n)) with 1%num by (symmetry; apply Hp). rewrite Qcmult_1_l. apply Qcle_refl.
Qed.

(** ** Products *)
Lemma within_refl n A : within_error n 0%num A A.
Proof. intros i Hi. unfold row_distance. match goal with |- (?a <= _)%num => replace a with 0%num; [apply Qcle_refl|] end. symmetry. apply sumL_zero. intros j _. replace (A i j - A i j)%num with 0%num by ring. reflexivity. Qed.
Lemma within_mmul n a b A A' B B' : stochastic n A -> stochastic n B' -> within_error n a A A' -> within_error n b B B' ->
  within_error n (a + b)%num (mmul n A B) (mmul n A' B').
Proof.
  intros HA HB' Ha Hb i Hi. unfold row_distance.
  apply Qcle_trans with (sumN n (fun j => sumN n (fun k => A i k * qabs (B k j - B' k j) + qabs (A i k - A' i k) * B' k j)))%num.
  - apply sumL_le. intros j Hj. apply seq_In_iff in Hj. unfold mmul. rewrite <- sumN_sub. eapply Qcle_trans; [apply qabs_sumL|]. apply sumL_le. intros k Hk. apply seq_In_iff in Hk.
    rewrite <- qabs_scale by now apply HA. rewrite (Qcmult_comm (qabs (A i k - A' i k)%num)), <- qabs_scale by now apply HB'.
    pose proof (le_qabs (A i k * (B k j - B' k j))%num). pose proof (opp_le_qabs (A i k * (B k j - B' k j))%num). pose proof (le_qabs (B' k j * (A i k - A' i k))%num). pose proof (opp_le_qabs (B' k j * (A i k - A' i k))%num).
    replace (A i k * B k j - A' i k * B' k j)%num with (A i k * (B k j - B' k j) + B' k j * (A i k - A' i k))%num by ring. revert H H0 H1 H2. generalize (A i k * (B k j - B' k j))%num (B' k j * (A i k - A' i k))%num. intros x y H H0 H1 H2. apply qabs_least; revert H H0 H1 H2; generalize (qabs x) (qabs y); intros; qlra.
  - unfold sumN. rewrite sumL_swap. apply Qcle_trans with (sumL (fun k => A i k * b + qabs (A i k - A' i k))%num (seq 0 n)).
    + apply sumL_le. intros k Hk. apply seq_In_iff in Hk. rewrite sumL_add, sumL_scal_l, sumL_scal_l. replace (sumL (B' k) (seq 0 n)) with 1%num by (symmetry; now apply HB').
      assert (H := Hb k Hk). assert (H0 := proj1 HA i k Hi Hk). unfold row_distance, sumN in H. revert H H0. generalize (sumL (fun j => qabs (B k j - B' k j)%num) (seq 0 n)) (A i k). intros x y H H0.
      assert (G : (0 <= y * (b - x))%num) by (apply qmult_nonneg; [exact H0|qlra]). replace (y * (b - x))%num with (y * b - y * x)%num in G by ring. revert G. generalize (y * b)%num (y * x)%num (qabs (y - A' i k)%num). intros; qlra.
    + rewrite sumL_add, sumL_scal_r. replace (sumL (A i) (seq 0 n)) with 1%num by (symmetry; now apply HA). assert (H := Ha i Hi). unfold row_distance, sumN in H. revert H. generalize (sumL (fun j => qabs (A i j - A' i j)%num) (seq 0 n)). intros; qlra.
Qed.
(** the k-th matrices differ by at most the k-th number *)
Inductive all_within (n : nat) : list num -> list mat -> list mat -> Prop :=
| within_nil : all_within n [] [] []
| within_cons e A B es l l' : within_error n e A B -> all_within n es l l' -> all_within n (e :: es) (A :: l) (B :: l').
Lemma row_distance_nonneg n A B i : (0 <= row_distance n A B i)%num.
Proof. apply sumL_nonneg. intros j _. apply qabs_nonnegative. Qed.
Lemma within_chain n es l l' : all_within n es l l' -> (forall A, In A l -> stochastic n A) -> (forall A, In A l' -> stochastic n A) ->
  within_error n (sumL (fun e => e) es) (chain n l) (chain n l').
Proof.
  intros H. induction H as [|e A B es l l' HA H IH]; intros Hl Hl'; [apply within_refl|]. rewrite sumL_cons. cbn [chain fold_right].
  apply within_mmul; [apply Hl; now left| |exact HA|apply IH; intros C HC; [apply Hl|apply Hl']; now right]. apply stochastic_chain. intros C HC. apply Hl'. now right.
Qed.
Lemma within_firstn n es l l' k : all_within n es l l' -> all_within n (firstn k es) (firstn k l) (firstn k l').
Proof. intros H. revert k. induction H as [|e A B es l l' HA H IH]; intros [|k]; cbn [firstn]; constructor; auto. Qed.
Lemma within_app n es l l' fs m m' : all_within n es l l' -> all_within n fs m m' -> all_within n (es ++ fs) (l ++ m) (l' ++ m').
Proof. intros H H'. induction H; cbn [app]; [exact H'|]. now constructor. Qed.
Lemma within_rev n es l l' : all_within n es l l' -> all_within n (rev es) (rev l) (rev l').
Proof. intros H. induction H as [|e A B es l l' HA H IH]; cbn [rev]; [constructor|]. apply within_app; [exact IH|]. constructor; [exact HA|constructor]. Qed.
Lemma within_length n es l l' : all_within n es l l' -> length es = length l /\ length l = length l'.
Proof. intros H. induction H as [|e A B es l l' HA H IH]; [now split|]. cbn [length]. destruct IH; split; congruence. Qed.
Lemma within_nonneg n es l l' : 0 < n -> all_within n es l l' -> forall e, In e es -> (0 <= e)%num.
Proof. intros Hn H. induction H as [|e A B es l l' HA H IH]; intros x Hx; [destruct Hx|]. destruct Hx as [<-|Hx]; [|now apply IH]. eapply Qcle_trans; [apply (row_distance_nonneg n A B 0)|apply HA; lia]. Qed.

Lemma sum_firstn_le es k : (forall e, In e es -> (0 <= e)%num) -> (sumL (fun e => e) (firstn k es) <= sumL (fun e => e) es)%num.
Proof.
  intros H. rewrite <- (firstn_skipn k es) at 2. rewrite sumL_app. assert (G : (0 <= sumL (fun e => e) (skipn k es))%num). { apply sumL_nonneg. intros e He. apply H. rewrite <- (firstn_skipn k es). apply in_or_app. now right. }
  revert G. generalize (sumL (fun e => e) (skipn k es)) (sumL (fun e => e) (firstn k es)). intros; qlra.
Qed.
Lemma sum_rev (es : list num) : sumL (fun e => e) (rev es) = sumL (fun e => e) es.
Proof. apply sumL_perm. symmetry. apply Permutation_rev. Qed.
Lemma within_sym n e A B : within_error n e A B -> within_error n e B A.
Proof. intros H i Hi. eapply Qcle_trans; [|exact (H i Hi)]. apply sumL_le. intros j _. apply qabs_sym_le. Qed.
Lemma all_within_sym n es l l' : all_within n es l l' -> all_within n es l' l.
Proof. intros H. induction H; constructor; [now apply within_sym|assumption]. Qed.

(** ** Averages *)
Lemma average_gap n l l' p1 tl r q es m : distribution_ok n p1 -> times_ok tl -> all_stochastic n None (Some l) -> all_stochastic n None (Some l') -> all_within n es l l' ->
  valid q -> num_nodes q = n -> 0 < m -> m <= steps_in None (Some l) tl -> 0 < n ->
  (compute_stability (flow_average n None (Some l) p1 tl r m) q - compute_stability (flow_average n None (Some l') p1 tl r m) q <= sumL (fun e => e) es)%num.
Proof.
  intros Hp Ht HS HS' HW Hq Hn H0 Hm Hn0. destruct (within_length n es l l' HW) as [HL1 HL2].
  assert (ET : flow_times None (Some l') tl r = flow_times None (Some l) tl r) by (unfold flow_times; cbn [given]; now rewrite HL2).
  unfold flow_average. rewrite ET. set (ts := flow_times None (Some l) tl r). set (p := the_distribution n p1). assert (Hts : monotone ts) by apply (ts_monotone None (Some l) tl r Ht).
  assert (Hlt : m < length ts) by (apply below_times; assumption).
  pose proof (stab_average n p (flow_transition n None (Some l) r) ts q m) as E1. pose proof (stab_average n p (flow_transition n None (Some l') r) ts q m) as E2. unfold stab in E1, E2. rewrite E1, E2. clear E1 E2.
  rewrite <- (gap_sum ts m Hts Hlt). assert (HG := gap_sum_pos ts m Hts H0 Hlt). set (W := sumN m (gap ts)) in *. assert (HW0 : W <> 0%num) by (intros E; rewrite E in HG; exact (Qclt_not_le _ _ HG (Qcle_refl _))).
  set (e := sumL (fun e => e) es).
  assert (HB : (sumN m (fun k => gap ts k * compute_stability (flow_cov n p (flow_transition n None (Some l) r k)) q) - sumN m (fun k => gap ts k * compute_stability (flow_cov n p (flow_transition n None (Some l') r k)) q) <= W * e)%num).
  { rewrite <- sumN_sub. unfold W. rewrite <- sumN_scal_r. apply sumL_le. intros k Hk. apply seq_In_iff in Hk.
    assert (Hgap : (0 < gap ts k)%num) by (apply dt_nth; [exact Hts|lia]).
    assert (HC : (compute_stability (flow_cov n p (flow_transition n None (Some l) r k)) q - compute_stability (flow_cov n p (flow_transition n None (Some l') r k)) q <= e)%num).
    { assert (Hk1 : k < length l) by (unfold steps_in in Hm; cbn [given] in Hm; lia). apply cov_gap; try assumption.
      - now apply the_distribution_ok.
      - now apply flow_transition_stochastic.
      - apply flow_transition_stochastic; [exact HS'|cbn [given]; lia].
      - unfold flow_transition, transition. cbn [given]. assert (HI : exists fs, all_within n fs (TransSpec.in_order r l) (TransSpec.in_order r l') /\ sumL (fun e => e) fs = e /\ (forall x, In x fs -> (0 <= x)%num)).
        { destruct r; cbn [TransSpec.in_order]; [exists (rev es)|exists es]; (split; [first [now apply within_rev|exact HW]|split; [first [apply sum_rev|reflexivity]|]]); intros x Hx; apply (within_nonneg n es l l' Hn0 HW); [now apply in_rev|exact Hx]. }
        destruct HI as (fs & HF & EF & Hpos). assert (HO : forall A, In A (TransSpec.in_order r l) -> stochastic n A) by (intros A HA; apply HS; cbn [given]; destruct r; [now apply in_rev|exact HA]). assert (HO' : forall A, In A (TransSpec.in_order r l') -> stochastic n A) by (intros A HA; apply HS'; cbn [given]; destruct r; [now apply in_rev|exact HA]).
        intros i Hi. apply Qcle_trans with (sumL (fun e => e) (firstn (S k) fs)); [|rewrite <- EF; now apply sum_firstn_le].
        apply (within_chain n _ _ _ (within_firstn n fs _ _ (S k) HF)); [| |exact Hi]; intros A HA; [apply HO|apply HO']; [rewrite <- (firstn_skipn (S k) (TransSpec.in_order r l))|rewrite <- (firstn_skipn (S k) (TransSpec.in_order r l'))]; apply in_or_app; now left. }
    revert HC Hgap. generalize (compute_stability (flow_cov n p (flow_transition n None (Some l) r k)) q) (compute_stability (flow_cov n p (flow_transition n None (Some l') r k)) q) (gap ts k). intros x y z HC Hgap.
    assert (G : (0 <= z * (e - (x - y)))%num) by (apply qmult_nonneg; [now apply Qclt_le_weak|revert HC; generalize e; intros; qlra]). replace (z * (e - (x - y)))%num with (z * e - (z * x - z * y))%num in G by ring. revert G. generalize (z * e)%num (z * x)%num (z * y)%num. intros; qlra. }
  revert HB. generalize (sumN m (fun k => gap ts k * compute_stability (flow_cov n p (flow_transition n None (Some l) r k)) q)%num) (sumN m (fun k => gap ts k * compute_stability (flow_cov n p (flow_transition n None (Some l') r k)) q)%num). intros x y HB.
  assert (G : (0 <= (W * e - (x - y)) / W)%num) by (apply qdiv_nonneg; [revert HB; generalize (W * e)%num; intros; qlra|exact HG]). replace ((W * e - (x - y)) / W)%num with (e - (x / W - y / W))%num in G by (field; exact HW0). revert G. generalize (x / W)%num (y / W)%num e. intros; qlra.
Qed.

(** * C203: errors of the matrices between events at most add up
    If the matrices of two flows differ, step by step, by at most the numbers of [es], then the
    stabilities of a partition in their integrals differ by at most the sum of [es]. *)
Theorem C203_errors_add_up : forall n kd kd' l l' es p1 tl g r rtol rtol' F F' q a, exact kd rtol -> exact kd' rtol' -> distribution_ok n p1 -> times_ok tl ->
  all_stochastic n None (Some l) -> all_stochastic n None (Some l') -> all_within n es l l' ->
  flow_integral n kd None (Some l) p1 tl g r rtol = Some F -> flow_integral n kd' None (Some l') p1 tl g r rtol' = Some F' ->
  valid q -> num_nodes q = n ->
  length (f_I F) = length (f_I F') /\
  (a < length (f_I F) -> (qabs (compute_stability (nth a (f_I F) ident) q - compute_stability (nth a (f_I F') ident) q) <= sumL (fun e => e) es)%num).
Proof.
  intros n kd kd' l l' es p1 tl g r rtol rtol' F F' q a Hex Hex' Hp Ht HS HS' HW HF HF' Hq Hn.
  assert (Hn0 : 0 < n). { destruct n; [|lia]. exfalso. destruct p1 as [p'|]; cbn in Hp; [|lia]. destruct Hp as [_ Hp]. discriminate Hp. }
  destruct (within_length n es l l' HW) as [HL1 HL2].
  assert (ET : flow_times None (Some l') tl r = flow_times None (Some l) tl r) by (unfold flow_times; cbn [given]; now rewrite HL2).
  assert (ES : steps_in None (Some l') tl = steps_in None (Some l) tl) by (unfold steps_in; cbn [given]; now rewrite HL2).
  destruct (flow_stored _ _ _ _ _ _ _ _ _ _ HS HF) as (Ts & kg & tg & E1 & HL & Hne & EG & _ & _ & _ & _ & EI).
  destruct (flow_stored _ _ _ _ _ _ _ _ _ _ HS' HF') as (Ts' & kg' & tg' & E1' & HL' & _ & EG' & _ & _ & _ & _ & EI').
  rewrite ET, EG in EG'. injection EG' as <- <-. rewrite ES in EI'. rewrite EI, EI', !map_length. split; [reflexivity|]. intros Ha.
  set (ms := stored kg 0 (steps_in None (Some l) tl)) in *. set (m := nth a ms 0). assert (Hm : In m ms) by now apply nth_In. apply stored_in in Hm. destruct Hm as (_ & H0 & Hm).
  set (f := integral_at n kd rtol (the_distribution n p1) Ts (flow_times None (Some l) tl r)). set (f' := integral_at n kd' rtol' (the_distribution n p1) Ts' (flow_times None (Some l') tl r)).
  assert (EA : nth a (map f ms) ident = f m) by (rewrite (nth_indep _ ident (f 0)) by (now rewrite map_length); apply map_nth).
  assert (EA' : nth a (map f' ms) ident = f' m) by (rewrite (nth_indep _ ident (f' 0)) by (now rewrite map_length); apply map_nth).
  rewrite EA, EA'. rewrite (same_stability n q Hq Hn (f m) (flow_average n None (Some l) p1 tl r m)) by (apply integral_at_average; assumption).
  rewrite (same_stability n q Hq Hn (f' m) (flow_average n None (Some l') p1 tl r m)) by (apply integral_at_average; try assumption; rewrite ES; exact Hm).
  apply qabs_least; [now apply average_gap|]. match goal with |- (- (?x - ?y) <= _)%num => replace (- (x - y))%num with (y - x)%num by ring end.
  apply average_gap; try assumption; [now apply all_within_sym|now rewrite ES].
Qed.
(** so the best partition of the one flow is nearly the best of the other *)
Theorem C203_nearly_best : forall n kd kd' l l' es p1 tl g r rtol rtol' F F' q a, exact kd rtol -> exact kd' rtol' -> distribution_ok n p1 -> times_ok tl ->
  all_stochastic n None (Some l) -> all_stochastic n None (Some l') -> all_within n es l l' ->
  flow_integral n kd None (Some l) p1 tl g r rtol = Some F -> flow_integral n kd' None (Some l') p1 tl g r rtol' = Some F' ->
  valid q -> num_nodes q = n -> a < length (f_I F) -> best n (nth a (f_I F') ident) q ->
  forall q', valid q' -> num_nodes q' = n ->
  (compute_stability (nth a (f_I F) ident) q' <= compute_stability (nth a (f_I F) ident) q + (sumL (fun e => e) es + sumL (fun e => e) es))%num.
Proof.
  intros n kd kd' l l' es p1 tl g r rtol rtol' F F' q a Hex Hex' Hp Ht HS HS' HW HF HF' Hq Hn Ha HB q' Hq' Hn'.
  destruct (C203_errors_add_up n kd kd' l l' es p1 tl g r rtol rtol' F F' q a Hex Hex' Hp Ht HS HS' HW HF HF' Hq Hn) as [_ H1]. specialize (H1 Ha).
  destruct (C203_errors_add_up n kd kd' l l' es p1 tl g r rtol rtol' F F' q' a Hex Hex' Hp Ht HS HS' HW HF HF' Hq' Hn') as [_ H2]. specialize (H2 Ha). specialize (HB q' Hq' Hn').
  revert H1 H2 HB. generalize (compute_stability (nth a (f_I F) ident) q) (compute_stability (nth a (f_I F') ident) q) (compute_stability (nth a (f_I F) ident) q') (compute_stability (nth a (f_I F') ident) q') (sumL (fun e => e) es). intros x x' y y' e H1 H2 HB.
  pose proof (opp_le_qabs (x - x')%num) as K1. pose proof (le_qabs (y - y')%num) as K2. revert H1 H2 K1 K2 HB. generalize (qabs (x - x')%num) (qabs (y - y')%num). intros; qlra.
Qed.

(** two nodes; the second matrix is off by 1/10 in each row *)
Definition near : mat := fun i j => if i =? j then qf 11 20 else qf 9 20.
Definition first203 : mat := fun i j => if i =? j then qf 9 10 else qf 1 10.
Definition flow203 (l : list mat) (tl : list num) := flow_integral 2 Dense None (Some l) None (Some tl) None false None.
Lemma near_half : within_error 2 (qf 1 10) near half.
Proof. intros i Hi. do 2 (destruct i as [|i]; [vm_compute; discriminate|]). lia. Qed.
Lemma stochastic2 (A : mat) x y : A 0 0 = x -> A 1 1 = x -> A 0 1 = y -> A 1 0 = y -> (0 <= x)%num -> (0 <= y)%num -> (x + y = 1)%num -> stochastic 2 A.
Proof.
  intros E1 E2 E3 E4 H1 H2 H3. split.
  - intros i j Hi Hj. do 2 (destruct i as [|i]; [do 2 (destruct j as [|j]; [congruence|]); lia|]). lia.
  - intros i Hi. destruct i as [|[|i]]; [| |lia]; unfold sumN; cbn [seq]; rewrite !sumL_cons, sumL_nil, ?E1, ?E2, ?E3, ?E4, <- H3; ring.
Qed.
Example C203_applies : all_stochastic 2 None (Some [first203; near]) /\ all_stochastic 2 None (Some [first203; half]) /\
  all_within 2 [0%num; qf 1 10] [first203; near] [first203; half] /\ times_ok (Some [qn 0; qn 1; qn 3]) /\ valid (part_default 2) /\
  match flow203 [first203; near] [qn 0; qn 1; qn 3], flow203 [first203; half] [qn 0; qn 1; qn 3] with
  | Some F, Some F' => compute_stability (nth 0 (f_I F) ident) (part_default 2) = qf 68 625 /\ compute_stability (nth 0 (f_I F') ident) (part_default 2) = qf 8 75
  | _, _ => False end.
Proof.
  assert (S1 : stochastic 2 first203) by (apply (stochastic2 _ (qf 9 10) (qf 1 10)); try reflexivity; try (vm_compute; discriminate); now apply Qc_is_canon).
  assert (S2 : stochastic 2 near) by (apply (stochastic2 _ (qf 11 20) (qf 9 20)); try reflexivity; try (vm_compute; discriminate); now apply Qc_is_canon).
  assert (S3 : stochastic 2 half) by (apply (stochastic2 _ (/ 2)%num (/ 2)%num); try reflexivity; try (vm_compute; discriminate); now apply Qc_is_canon).
  split; [intros B [<-|[<-|[]]]; assumption|]. split; [intros B [<-|[<-|[]]]; assumption|]. split; [repeat constructor; [apply within_refl|exact near_half]|].
  split; [intros i j Hi Hj; do 3 (destruct j as [|j]; [do 3 (destruct i as [|i]; [try lia; apply qn_lt; lia|]); lia|]); cbn in Hj; lia|]. split; [apply default_valid|].
  vm_compute. split; now apply Qc_is_canon.
Qed.
(** all partitions are best in the flow that mixes everything at once *)
Example C203_best_applies : match flow203 [near] [qn 0; qn 1], flow203 [half] [qn 0; qn 1] with
  | Some F, Some F' => 0 < length (f_I F) /\ best 2 (nth 0 (f_I F') ident) (part_default 2) /\ compute_stability (nth 0 (f_I F) ident) (part_default 2) = qf 1 200 | _, _ => False end.
Proof.
  assert (E : eqm 2 (match flow203 [half] [qn 0; qn 1] with Some F' => nth 0 (f_I F') ident | None => ident end) (fun _ _ => 0%num)).
  { intros i j Hi Hj. do 2 (destruct i as [|i]; [do 2 (destruct j as [|j]; [vm_compute; now apply Qc_is_canon|]); lia|]). lia. }
  assert (K : match flow203 [near] [qn 0; qn 1], flow203 [half] [qn 0; qn 1] with Some F, Some F' => length (f_I F) = 1 /\ qeqb (compute_stability (nth 0 (f_I F) ident) (part_default 2)) (qf 1 200) = true | _, _ => False end) by (vm_compute; auto).
  destruct (flow203 [near] [qn 0; qn 1]) as [F|]; [|exact K]. destruct (flow203 [half] [qn 0; qn 1]) as [F'|]; [|exact K]. destruct K as [K1 K2]. split; [lia|]. split.
  - intros q Hq Hn. rewrite (same_stability 2 q Hq Hn _ _ E), (same_stability 2 (part_default 2) (default_valid 2) eq_refl _ _ E). rewrite !stability_eq. unfold block. rewrite !sumL_zero; [apply Qcle_refl| |]; intros c _; apply sumL_zero; intros i _; apply sumL_zero; now intros j _.
  - now destruct (qeqb_spec (compute_stability (nth 0 (f_I F) ident) (part_default 2)) (qf 1 200)).
Qed.

Print Assumptions C203_errors_add_up.
Print Assumptions C203_nearly_best.
