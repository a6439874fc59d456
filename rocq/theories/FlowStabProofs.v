(** Lemmas on the stability of partitions under flows. *)
From Verif Require Import Base PartitionModel PartitionSpec LouvainModel SparseModel EventsModel EventsSpec TransModel TransSpec MatProofs
  FlowModel FlowSpec FlowProofs FlowGridProofs PartitionProofs LouvainProofs.

(** ** One flow *)
Section Cov.
Context (n : nat) (p : nat -> num).
Implicit Type T : mat.
(** walkers that start in c: probability to end at k, and to start there *)
Definition from (c : list nat) T (k : nat) : num := sumL (fun i => (p i * T i k)%num) c.
Definition over (a e : num) : num := if qeqb e 0%num then 0%num else (a * a / e)%num.

Lemma block_cov T c : block (flow_cov n p T) c c = (sumN n (fun k => over (from c T k) (at_end n p T k)) - sumL p c * sumL p c)%num.
Proof.
  unfold block, flow_cov. transitivity (sumL (fun i => sumN n (fun k => if qeqb (at_end n p T k) 0 then 0 else p i * T i k * (from c T k / at_end n p T k)) - p i * sumL p c) c)%num.
  - apply sumL_ext. intros i _. rewrite sumL_sub, sumL_scal_l. f_equal. unfold sumN. rewrite sumL_swap. apply sumL_ext. intros k _.
    destruct (qeqb_spec (at_end n p T k) 0%num) as [E|E]; [now apply sumL_zero|].
    transitivity (sumL (fun j => (p i * T i k / at_end n p T k) * (p j * T j k))%num c); [apply sumL_ext; intros j _; field; exact E|].
    rewrite sumL_scal_l. fold (from c T k). field. exact E.
  - rewrite sumL_sub, sumL_scal_r. f_equal. unfold sumN. rewrite sumL_swap. apply sumL_ext. intros k _. unfold over.
    destruct (qeqb_spec (at_end n p T k) 0%num) as [E|E]; [now apply sumL_zero|].
    rewrite sumL_scal_r. fold (from c T k). field. exact E.
Qed.

Hypothesis Hp : distribution n p.
Lemma from_nonneg c T k : stochastic n T -> (forall i, In i c -> i < n) -> k < n -> (0 <= from c T k)%num.
Proof. intros HT Hc Hk. apply sumL_nonneg. intros i Hi. apply qmult_nonneg; [now apply Hp, Hc|apply HT; [now apply Hc|exact Hk]]. Qed.
Lemma from_zero c T k : stochastic n T -> (forall i, In i c -> i < n) -> k < n -> at_end n p T k = 0%num -> from c T k = 0%num.
Proof. intros HT Hc Hk E. apply sumL_zero. intros i Hi. apply (at_end_zero n p T Hp HT); auto. Qed.
Lemma from_mmul c T A k : from c (mmul n T A) k = sumN n (fun j => from c T j * A j k)%num.
Proof.
  unfold from, mmul. transitivity (sumL (fun i => sumN n (fun j => p i * T i j * A j k)) c)%num.
  - apply sumL_ext. intros i _. rewrite <- sumN_scal_l. apply sumN_ext. intros j _. ring.
  - unfold sumN. rewrite sumL_swap. apply sumL_ext. intros j _. now rewrite sumL_scal_r.
Qed.
Lemma at_end_mmul T A k : at_end n p (mmul n T A) k = sumN n (fun j => at_end n p T j * A j k)%num.
Proof. exact (from_mmul (seq 0 n) T A k). Qed.
(** (sum a w)^2 / (sum e w) <= sum (a^2/e) w *)
Lemma weighted_squares (a e w : nat -> num) : (forall j, j < n -> (0 <= e j)%num /\ (0 <= w j)%num /\ (e j = 0%num -> a j = 0%num)) ->
  (over (sumN n (fun j => a j * w j)) (sumN n (fun j => e j * w j)) <= sumN n (fun j => over (a j) (e j) * w j))%num.
Proof.
  intros H. set (x := sumN n (fun j => a j * w j)%num). set (y := sumN n (fun j => e j * w j)%num).
  assert (HO : forall j, j < n -> (0 <= over (a j) (e j))%num).
  { intros j Hj. destruct (H j Hj) as (He & _). unfold over. destruct (qeqb_spec (e j) 0%num) as [E|E]; [apply Qcle_refl|].
    apply qdiv_nonneg; [apply qsq_nonneg|]. destruct (qle_lt_or_eq _ _ He) as [G|G]; [exact G|congruence]. }
  unfold over at 1. destruct (qeqb_spec y 0%num) as [E|E].
  - apply sumN_nonneg. intros j Hj. apply qmult_nonneg; [now apply HO|now apply H].
  - assert (G : (0 <= sumN n (fun j => (over (a j) (e j) - (x / y + x / y) * a j + x / y * (x / y) * e j) * w j))%num).
    { apply sumN_nonneg. intros j Hj. destruct (H j Hj) as (He & Hw & Hz). apply qmult_nonneg; [|exact Hw]. unfold over. destruct (qeqb_spec (e j) 0%num) as [Ej|Ej].
      - rewrite (Hz Ej), Ej. replace (0 - (x / y + x / y) * 0 + x / y * (x / y) * 0)%num with 0%num by ring. apply Qcle_refl.
      - replace (a j * a j / e j - (x / y + x / y) * a j + x / y * (x / y) * e j)%num with ((a j - x / y * e j) * (a j - x / y * e j) / e j)%num by (field; split; assumption).
        apply qdiv_nonneg; [apply qsq_nonneg|]. destruct (qle_lt_or_eq _ _ He) as [G|G]; [exact G|congruence]. }
    replace (sumN n (fun j => (over (a j) (e j) - (x / y + x / y) * a j + x / y * (x / y) * e j) * w j))%num with (sumN n (fun j => over (a j) (e j) * w j) - x * x / y)%num in G.
    + revert G. generalize (sumN n (fun j => over (a j) (e j) * w j))%num (x * x / y)%num. clear. qlra.
    + transitivity (sumN n (fun j => over (a j) (e j) * w j - (x / y + x / y) * (a j * w j) + x / y * (x / y) * (e j * w j)))%num; [|apply sumN_ext; intros j _; ring].
      rewrite sumN_add, sumN_sub, !sumN_scal_l. fold x y. field. exact E.
Qed.
(** a further step never increases the stability of a cluster *)
Lemma block_step T A c : stochastic n T -> stochastic n A -> (forall i, In i c -> i < n) ->
  (block (flow_cov n p (mmul n T A)) c c <= block (flow_cov n p T) c c)%num.
Proof.
  intros HT HA Hc. rewrite !block_cov. assert (G : (sumN n (fun k => over (from c (mmul n T A) k) (at_end n p (mmul n T A) k)) <= sumN n (fun k => over (from c T k) (at_end n p T k)))%num).
  - apply Qcle_trans with (sumN n (fun k => sumN n (fun j => over (from c T j) (at_end n p T j) * A j k)))%num.
    + apply sumL_le. intros k Hk. apply seq_In_iff in Hk. rewrite from_mmul, at_end_mmul. apply (weighted_squares (from c T) (at_end n p T) (fun j => A j k)).
      intros j Hj. split; [now apply at_end_nonneg|]. split; [now apply HA|]. now apply from_zero.
    + rewrite sumN_swap. replace (sumN n (fun j => sumN n (fun k => over (from c T j) (at_end n p T j) * A j k)))%num with (sumN n (fun k => over (from c T k) (at_end n p T k))); [apply Qcle_refl|].
      apply sumN_ext. intros j Hj. rewrite sumN_scal_l. change (fun k => A j k) with (A j). destruct HA as [_ Hs]. rewrite (Hs j Hj). ring.
  - revert G. generalize (sumN n (fun k => over (from c (mmul n T A) k) (at_end n p (mmul n T A) k))) (sumN n (fun k => over (from c T k) (at_end n p T k))) (sumL p c * sumL p c)%num. clear. qlra.
Qed.
End Cov.

(** ** Clusters that cover the nodes *)
Section Cover.
Context (n : nat) (p : nat -> num) (Hp : distribution n p) (cl : list (list nat)) (Hcl : Permutation (concat cl) (seq 0 n)).
Implicit Type T : mat.
Lemma cover_below c i : In c cl -> In i c -> i < n.
Proof. intros Hc Hi. apply (seq_In_iff n i). apply (Permutation_in _ Hcl). apply in_concat. now exists c. Qed.
Lemma cover_sum (f : nat -> num) : sumL (fun c => sumL f c) cl = sumN n f.
Proof. rewrite <- (sumL_concat f). now apply sumL_perm. Qed.
(** by how much the sum over clusters of [over] stays below the probability to be at k *)
Definition missing T (k : nat) (c : list nat) : num :=
  (if qeqb (at_end n p T k) 0 then 0 else from p c T k * (at_end n p T k - from p c T k) / at_end n p T k)%num.
Lemma from_le c T k : stochastic n T -> In c cl -> k < n -> (from p c T k <= at_end n p T k)%num.
Proof.
  intros HT Hc Hk. unfold at_end. rewrite <- (cover_sum (fun i => p i * T i k)%num).
  apply (sumL_nonneg_term (fun c => sumL (fun i => p i * T i k)%num c)); [|exact Hc].
  intros d Hd. apply (from_nonneg n p Hp); [exact HT|intros i Hi; now apply (cover_below d)|exact Hk].
Qed.
Lemma missing_nonneg T k c : stochastic n T -> In c cl -> k < n -> (0 <= missing T k c)%num.
Proof.
  intros HT Hc Hk. unfold missing. destruct (qeqb_spec (at_end n p T k) 0%num) as [E|E]; [apply Qcle_refl|].
  apply qdiv_nonneg.
  - apply qmult_nonneg; [apply (from_nonneg n p Hp); [exact HT|intros i Hi; now apply (cover_below c)|exact Hk]|].
    assert (H := from_le c T k HT Hc Hk). revert H. generalize (from p c T k) (at_end n p T k). clear. qlra.
  - destruct (qle_lt_or_eq _ _ (at_end_nonneg n p T Hp HT k Hk)) as [H|H]; [exact H|congruence].
Qed.
Lemma over_missing T k c : stochastic n T -> In c cl -> k < n -> over (from p c T k) (at_end n p T k) = (from p c T k - missing T k c)%num.
Proof.
  intros HT Hc Hk. unfold over, missing. destruct (qeqb_spec (at_end n p T k) 0%num) as [E|E]; [|field; exact E].
  rewrite (from_zero n p Hp c T k HT (fun i => cover_below c i Hc) Hk E). ring.
Qed.
Definition squares : num := sumL (fun c => sumL p c * sumL p c)%num cl.
Lemma stability_missing T : stochastic n T ->
  sumL (fun c => block (flow_cov n p T) c c) cl = (1 - squares - sumL (fun c => sumN n (fun k => missing T k c)) cl)%num.
Proof.
  intros HT. transitivity (sumL (fun c => sumN n (fun k => from p c T k) - sumN n (fun k => missing T k c) - sumL p c * sumL p c) cl)%num.
  - apply sumL_ext. intros c Hc. rewrite block_cov. f_equal. rewrite <- sumN_sub. apply sumN_ext. intros k Hk. now apply over_missing.
  - rewrite !sumL_sub. fold squares. replace (sumL (fun c => sumN n (fun k => from p c T k)) cl) with 1%num; [ring|]. symmetry.
    transitivity (sumL (fun c => sumL p c) cl).
    + apply sumL_ext. intros c Hc. unfold sumN, from. rewrite sumL_swap. apply sumL_ext. intros i Hi. rewrite sumL_scal_l.
      transitivity (p i * sumN n (T i))%num; [reflexivity|]. destruct HT as [_ Hs]. rewrite (Hs i (cover_below c i Hc Hi)). ring.
    + rewrite cover_sum. apply Hp.
Qed.
(** walkers that start in different clusters do not end at the same node *)
Lemma missing_apart T : stochastic n T ->
  (sumL (fun c => sumN n (fun k => missing T k c)) cl = 0%num <->
   forall i j k, i < n -> j < n -> k < n -> (p i * T i k)%num <> 0%num -> (p j * T j k)%num <> 0%num -> exists c, In c cl /\ In i c /\ In j c).
Proof.
  intros HT. assert (HM : forall c, In c cl -> (0 <= sumN n (fun k => missing T k c))%num) by (intros c Hc; apply sumN_nonneg; intros k Hk; now apply missing_nonneg).
  assert (Hin : forall i, i < n -> exists c, In c cl /\ In i c).
  { intros i Hi. apply (seq_In_iff n i) in Hi. apply (Permutation_in _ (Permutation_sym Hcl)) in Hi. apply in_concat in Hi. exact Hi. }
  assert (HN : NoDup (concat cl)) by (apply (Permutation_NoDup (Permutation_sym Hcl)); apply seq_NoDup).
  assert (Hf : forall c i k, In c cl -> In i c -> k < n -> (0 <= p i * T i k)%num) by (intros c i k Hc Hi Hk; apply qmult_nonneg; [apply Hp|apply HT; [|exact Hk]]; now apply (cover_below c)).
  split.
  - intros H i j k Hi Hj Hk Ni Nj. destruct (Hin i Hi) as (c & Hc & Hic). exists c. split; [exact Hc|]. split; [exact Hic|].
    destruct (Hin j Hj) as (d & Hd & Hjd). destruct (list_eq_dec Nat.eq_dec c d) as [<-|Ncd]; [exact Hjd|]. exfalso.
    assert (H1 := sumL_nonneg_zero _ _ HM H c Hc). cbv beta in H1.
    assert (H2 : missing T k c = 0%num). { apply (sumL_nonneg_zero (fun k => missing T k c) (seq 0 n)); [|exact H1|now apply seq_In_iff]. intros a Ha. apply seq_In_iff in Ha. now apply missing_nonneg. }
    assert (Pi : (0 < p i * T i k)%num). { destruct (qle_lt_or_eq _ _ (Hf c i k Hc Hic Hk)) as [G|G]; [exact G|now symmetry in G]. }
    assert (Pj : (0 < p j * T j k)%num). { destruct (qle_lt_or_eq _ _ (Hf d j k Hd Hjd Hk)) as [G|G]; [exact G|now symmetry in G]. }
    assert (Gc : (p i * T i k <= from p c T k)%num) by (apply (sumL_nonneg_term (fun i => p i * T i k)%num); [intros a Ha; now apply (Hf c)|exact Hic]).
    assert (Gd : (p j * T j k <= from p d T k)%num) by (apply (sumL_nonneg_term (fun i => p i * T i k)%num); [intros a Ha; now apply (Hf d)|exact Hjd]).
    assert (Ge : (from p c T k + from p d T k <= at_end n p T k)%num).
    { unfold at_end. rewrite <- (cover_sum (fun i => p i * T i k)%num). fold (from p d T k).
      assert (forall d, In d cl -> (0 <= from p d T k)%num) as HG by (intros x Hx; apply (from_nonneg n p Hp); [exact HT|intros a Ha; now apply (cover_below x)|exact Hk]).
      destruct (in_split c cl Hc) as (l1 & l2 & El). rewrite El, sumL_app, sumL_cons. fold (from p c T k).
      assert (Hd' : In d (l1 ++ l2)). { rewrite El in Hd. apply in_app_or in Hd. apply in_or_app. destruct Hd as [Hd|[Hd|Hd]]; [now left|now destruct Ncd|now right]. }
      assert (H3 : (from p d T k <= sumL (fun c => from p c T k) (l1 ++ l2))%num).
      { apply (sumL_nonneg_term (fun c => from p c T k)); [|exact Hd']. intros x Hx. apply HG. rewrite El. apply in_app_or in Hx. apply in_or_app. destruct Hx; [now left|right; now right]. }
      rewrite sumL_app in H3. change (fun c => sumL (fun i => p i * T i k)%num c) with (fun c => from p c T k).
      revert H3. generalize (from p c T k) (from p d T k) (sumL (fun c => from p c T k) l1) (sumL (fun c => from p c T k) l2). clear. qlra. }
    unfold missing in H2. destruct (qeqb_spec (at_end n p T k) 0%num) as [E|E].
    + revert Pi Pj Gc Gd Ge E. generalize (p i * T i k)%num (p j * T j k)%num (from p c T k) (from p d T k) (at_end n p T k). clear. intros. subst. qlra.
    + assert (H3 : (0 < from p c T k * (at_end n p T k - from p c T k))%num).
      { apply qmult_pos; revert Pi Pj Gc Gd Ge; generalize (p i * T i k)%num (p j * T j k)%num (from p c T k) (from p d T k) (at_end n p T k); clear; qlra. }
      assert (H4 : (from p c T k * (at_end n p T k - from p c T k) = 0)%num).
      { transitivity (from p c T k * (at_end n p T k - from p c T k) / at_end n p T k * at_end n p T k)%num; [field; exact E|]. rewrite H2. ring. }
      rewrite H4 in H3. discriminate H3.
  - intros H. apply sumL_zero. intros c Hc. apply sumN_zero. intros k Hk. unfold missing. destruct (qeqb_spec (at_end n p T k) 0%num) as [E|E]; [reflexivity|].
    assert (G : from p c T k = 0%num \/ from p c T k = at_end n p T k).
    { destruct (Qc_eq_dec (from p c T k) 0%num) as [Z0|NZ]; [now left|]. right.
      assert (Hi : exists i, In i c /\ (p i * T i k)%num <> 0%num).
      { assert (forall l, (sumL (fun i => p i * T i k) l)%num <> 0%num -> exists i, In i l /\ (p i * T i k)%num <> 0%num) as HH.
        { induction l as [|x l IH]; [now rewrite sumL_nil|]. rewrite sumL_cons. intros Hx. destruct (Qc_eq_dec (p x * T x k)%num 0%num) as [Ex|Nx].
          - rewrite Ex in Hx. destruct IH as (y & Hy & Ny); [intros Ey; apply Hx; rewrite Ey; ring|]. exists y. split; [now right|exact Ny].
          - exists x. split; [now left|exact Nx]. }
        now apply HH. }
      destruct Hi as (i & Hic & Ni). unfold at_end. rewrite <- (cover_sum (fun i => p i * T i k)%num).
      destruct (in_split c cl Hc) as (l1 & l2 & El).
      assert (HZ : forall d, In d (l1 ++ l2) -> sumL (fun i => p i * T i k)%num d = 0%num).
      { intros d Hd. apply sumL_zero. intros j Hj. destruct (Qc_eq_dec (p j * T j k)%num 0%num) as [Ej|Nj]; [exact Ej|]. exfalso.
        assert (Hd' : In d cl) by (rewrite El; apply in_app_or in Hd; apply in_or_app; destruct Hd; [now left|right; now right]).
        destruct (H i j k (cover_below c i Hc Hic) (cover_below d j Hd' Hj) Hk Ni Nj) as (x & Hx & Hix & Hjx).
        rewrite El in HN. assert (HN' := HN). rewrite concat_app in HN'. cbn [concat] in HN'.
        assert (HP : NoDup (c ++ (concat l1 ++ concat l2))) by (eapply Permutation_NoDup; [|exact HN']; rewrite !app_assoc; apply Permutation_app_tail, Permutation_app_comm).
        assert (Hout : forall a, In a c -> ~ In a (concat (l1 ++ l2))).
        { intros a Ha Hb. rewrite concat_app in Hb. revert HP. generalize (concat l1 ++ concat l2) Ha Hb. clear. intros l Ha Hb HP. induction c as [|y c IH]; [destruct Ha|]. inversion HP as [|? ? H1 H2]; subst.
          destruct Ha as [<-|Ha]; [apply H1, in_or_app; now right|]. now apply IH. }
        rewrite El in Hx. assert (Hx' : x = c \/ In x (l1 ++ l2)). { apply in_app_or in Hx. destruct Hx as [Hx|[Hx|Hx]]; [right; apply in_or_app; now left|now left|right; apply in_or_app; now right]. }
        destruct Hx' as [->|Hx']; [|apply (Hout i Hic); apply in_concat; now exists x]. apply (Hout j Hjx). apply in_concat. now exists d. }
      rewrite El, sumL_app, sumL_cons. fold (from p c T k).
      rewrite (sumL_zero _ l1) by (intros d Hd; apply HZ, in_or_app; now left). rewrite (sumL_zero _ l2) by (intros d Hd; apply HZ, in_or_app; now right). ring. }
    destruct G as [-> | ->]; field; exact E.
Qed.
End Cover.

(** ** Averages *)
Section Average.
Context (n : nat) (p : nat -> num) (Hp : distribution n p) (T : nat -> mat) (ts : list num) (Hts : monotone ts).
Variable q : partition.
Hypothesis (Hq : valid q) (Hn : num_nodes q = n).
Let cl := cluster_list q.
Lemma q_cover : Permutation (concat cl) (seq 0 n).
Proof. unfold cl. rewrite <- Hn. now apply valid_perm. Qed.
Definition stab (A : mat) : num := compute_stability A q.
Lemma stab_blocks A : stab A = sumL (fun c => block A c c) cl.
Proof. exact (stability_eq A q). Qed.
Lemma stab_ext A B : eqm n A B -> stab A = stab B.
Proof.
  intros H. rewrite !stab_blocks. apply sumL_ext. intros c Hc. apply block_ext. intros i j Hi Hj. apply H; now apply (cover_below n cl q_cover c).
Qed.
Lemma stab_average m : stab (time_average n p T ts m) = (sumN m (fun k => gap ts k * stab (flow_cov n p (T k))) / qabs (nth m ts 0 - nth 0 ts 0))%num.
Proof.
  rewrite stab_blocks. unfold time_average, block. set (W := qabs (nth m ts 0 - nth 0 ts 0)%num).
  transitivity (sumL (fun c => sumN m (fun k => gap ts k * block (flow_cov n p (T k)) c c) / W)%num cl).
  - apply sumL_ext. intros c _. unfold Qcdiv. rewrite <- sumN_scal_r.
    transitivity (sumL (fun i => sumN m (fun k => gap ts k * sumL (fun j => flow_cov n p (T k) i j) c * / W)) c)%num.
    + apply sumL_ext. intros i _. rewrite sumL_scal_r. unfold sumN at 1. rewrite sumL_swap. unfold sumN. rewrite <- sumL_scal_r. apply sumL_ext. intros k _. now rewrite sumL_scal_l.
    + unfold sumN. rewrite sumL_swap. apply sumL_ext. intros k _. rewrite sumL_scal_r, sumL_scal_l. reflexivity.
  - unfold Qcdiv. rewrite sumL_scal_r. f_equal. unfold sumN. rewrite sumL_swap. apply sumL_ext. intros k _. rewrite sumL_scal_l. f_equal. symmetry. apply stab_blocks.
Qed.
Lemma gaps_pos m k : m < length ts -> k < m -> (0 < gap ts k)%num.
Proof. intros Hm Hk. apply dt_nth; [exact Hts|lia]. Qed.
Lemma total_pos m : 0 < m -> m < length ts -> (0 < qabs (nth m ts 0 - nth 0 ts 0))%num.
Proof. intros H0 Hm. rewrite <- (gap_sum ts m Hts Hm). now apply gap_sum_pos. Qed.

Lemma average_shorter m : (forall k, S k < S m -> (stab (flow_cov n p (T (S k))) <= stab (flow_cov n p (T k)))%num) -> 0 < m -> S m < length ts ->
  (stab (time_average n p T ts (S m)) <= stab (time_average n p T ts m))%num.
Proof.
  intros Hd H0 Hm. rewrite !stab_average. assert (W0 := total_pos m H0 ltac:(lia)). assert (W1 := total_pos (S m) ltac:(lia) Hm).
  rewrite <- (gap_sum ts m Hts) in * by lia. rewrite <- (gap_sum ts (S m) Hts Hm) in *. rewrite sumN_S in W1 |- *. rewrite (sumN_S m (gap ts)).
  set (s := fun k => stab (flow_cov n p (T k))) in *. change (fun k => gap ts k * stab (flow_cov n p (T k)))%num with (fun k => gap ts k * s k)%num.
  change (stab (flow_cov n p (T m))) with (s m). assert (Hg := gaps_pos (S m) m Hm ltac:(lia)).
  assert (HG : (s m * sumN m (gap ts) <= sumN m (fun k => gap ts k * s k))%num).
  { rewrite <- sumN_scal_l. apply sumL_le. intros k Hk. apply seq_In_iff in Hk. assert (Hk2 := gaps_pos (S m) k Hm ltac:(lia)).
    assert (Hs : (s m <= s k)%num). { clear - Hd Hk. induction m as [|m IH]; [lia|]. destruct (Nat.eq_dec k m) as [->|N]; [apply Hd; lia|]. apply Qcle_trans with (s m); [apply Hd; lia|]. apply IH; [|lia]. intros a Ha. apply Hd. lia. }
    rewrite (Qcmult_comm (gap ts k)). apply Qcmult_le_compat_r; [exact Hs|apply Qclt_le_weak; exact Hk2]. }
  revert W0 W1 Hg HG. generalize (sumN m (gap ts)) (sumN m (fun k => gap ts k * s k)%num) (gap ts m) (s m). clear. intros W G g x W0 W1 Hg HG.
  assert (E : (G / W - (G + g * x) / (W + g) = g * (G - x * W) / (W * (W + g)))%num) by (field; split; apply qneq_pos; assumption).
  assert (H : (0 <= g * (G - x * W) / (W * (W + g)))%num). { apply qdiv_nonneg; [apply qmult_nonneg; [revert Hg; clear; qlra|revert HG; generalize (x * W)%num; clear; qlra]|now apply qmult_pos]. }
  rewrite <- E in H. revert H. generalize (G / W)%num ((G + g * x) / (W + g))%num. clear. qlra.
Qed.
(** the average stays away from the largest value by the average of what is missing *)
Lemma stab_average_missing m : (forall k, k < m -> stochastic n (T k)) -> 0 < m -> m < length ts ->
  stab (time_average n p T ts m) = (1 - squares p cl -
    sumN m (fun k => gap ts k * sumL (fun c => sumN n (fun j => missing n p (T k) j c)) cl) / qabs (nth m ts 0 - nth 0 ts 0))%num.
Proof.
  intros HS H0 Hm. rewrite stab_average. assert (W0 := total_pos m H0 Hm).
  transitivity (sumN m (fun k => gap ts k * (1 - squares p cl) - gap ts k * sumL (fun c => sumN n (fun j => missing n p (T k) j c)) cl) / qabs (nth m ts 0 - nth 0 ts 0))%num.
  - f_equal. apply sumN_ext. intros k Hk. rewrite stab_blocks, (stability_missing n p Hp cl q_cover (T k) (HS k Hk)). ring.
  - rewrite sumN_sub, sumN_scal_r. change (sumN m (fun k => gap ts k)) with (sumN m (gap ts)). rewrite (gap_sum ts m Hts Hm). field. now apply qneq_pos.
Qed.
Lemma missing_total_nonneg A : stochastic n A -> (0 <= sumL (fun c => sumN n (fun j => missing n p A j c)) cl)%num.
Proof. intros HA. apply sumL_nonneg. intros c Hc. apply sumN_nonneg. intros k Hk. now apply (missing_nonneg n p Hp cl q_cover). Qed.
Lemma average_upper m : (forall k, k < m -> stochastic n (T k)) -> 0 < m -> m < length ts -> (stab (time_average n p T ts m) <= 1 - squares p cl)%num.
Proof.
  intros HS H0 Hm. rewrite stab_average_missing by assumption.
  assert (H : (0 <= sumN m (fun k => gap ts k * sumL (fun c => sumN n (fun j => missing n p (T k) j c)) cl) / qabs (nth m ts 0 - nth 0 ts 0))%num).
  { apply qdiv_nonneg; [|now apply total_pos]. apply sumN_nonneg. intros k Hk. apply qmult_nonneg; [apply Qclt_le_weak; now apply (gaps_pos m)|now apply missing_total_nonneg, HS]. }
  revert H. generalize (sumN m (fun k => gap ts k * sumL (fun c => sumN n (fun j => missing n p (T k) j c)) cl) / qabs (nth m ts 0 - nth 0 ts 0))%num (1 - squares p cl)%num. clear. qlra.
Qed.
Lemma average_reached m : (forall k, k < m -> stochastic n (T k)) -> 0 < m -> m < length ts ->
  (stab (time_average n p T ts m) = (1 - squares p cl)%num <-> forall k, k < m -> sumL (fun c => sumN n (fun j => missing n p (T k) j c)) cl = 0%num).
Proof.
  intros HS H0 Hm. rewrite stab_average_missing by assumption. assert (W0 := total_pos m H0 Hm).
  set (M := fun k => sumL (fun c => sumN n (fun j => missing n p (T k) j c)) cl). set (W := qabs (nth m ts 0 - nth 0 ts 0)%num) in *.
  change (fun k => gap ts k * sumL (fun c => sumN n (fun j => missing n p (T k) j c)) cl)%num with (fun k => gap ts k * M k)%num. split.
  - intros E k Hk. assert (E0 : sumN m (fun k => gap ts k * M k)%num = 0%num).
    { assert (E1 : (sumN m (fun k => gap ts k * M k) / W = 0)%num). { revert E. generalize (sumN m (fun k => gap ts k * M k) / W)%num (1 - squares p cl)%num. clear. intros a b E. replace a with (b - (b - a))%num by ring. rewrite E. ring. }
      transitivity (sumN m (fun k => gap ts k * M k) / W * W)%num; [field; now apply qneq_pos|]. rewrite E1. ring. }
    assert (E2 : (gap ts k * M k)%num = 0%num).
    { apply (sumL_nonneg_zero (fun k => gap ts k * M k)%num (seq 0 m)); [|exact E0|now apply seq_In_iff].
      intros a Ha. apply seq_In_iff in Ha. apply qmult_nonneg; [apply Qclt_le_weak; now apply (gaps_pos m)|exact (missing_total_nonneg (T a) (HS a Ha))]. }
    assert (Hg := qneq_pos _ (gaps_pos m k Hm Hk)). change (M k = 0%num). transitivity (gap ts k * M k / gap ts k)%num; [field; exact Hg|]. rewrite E2. field. exact Hg.
  - intros H. rewrite (sumN_zero m). + field. now apply qneq_pos. + intros k Hk. unfold M. rewrite (H k Hk). ring.
Qed.
Lemma stab_nonneg A : covariance_like n A -> (0 <= stab A)%num.
Proof.
  intros (_ & HA & _). rewrite stab_blocks. apply sumL_nonneg. intros c Hc. 
  assert (HND : NoDup c). { destruct Hq as [[HF _] _]. rewrite Forall_forall in HF. now apply HF. }
  assert (HP : Permutation c (filter (fun i => memb i c) (seq 0 n))).
  { apply NoDup_Permutation; [exact HND|apply NoDup_filter, seq_NoDup|]. intros x. rewrite filter_In, seq_In_iff. split; [|intros [_ H]; now apply memb_In].
    intros Hx. split; [now apply (cover_below n cl q_cover c)|now apply memb_In]. }
  assert (E : forall f, sumL f c = sumN n (fun i => (if memb i c then 1 else 0) * f i)%num).
  { intros f. rewrite (sumL_perm f _ _ HP), sumL_filter. apply sumL_ext. intros i _. destruct (memb i c); ring. }
  unfold block. rewrite E.
  replace (sumN n (fun i => (if memb i c then 1 else 0) * sumL (fun j => A i j) c))%num with
    (sumN n (fun i => sumN n (fun j => (if memb i c then 1 else 0) * A i j * (if memb j c then 1 else 0))))%num; [apply HA|].
  apply sumN_ext. intros i _. rewrite E, <- sumN_scal_l. apply sumN_ext. intros j _. ring.
Qed.
End Average.
