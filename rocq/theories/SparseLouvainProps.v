(** SparseClustering: properties C64-C66. *)
From Verif Require Import Base PartitionModel PartitionSpec PartitionProofs LouvainModel LouvainSpec LouvainProofs
  SparseModel SparseSpec SparseProofs SparseOpsProofs SparseConvProofs AutocovModel AutocovSpec AutocovProofs
  AutocovAggProofs AutocovCtorProofs AutocovProps SparseLouvainModel SparseLouvainSpec SparseLouvainProofs.

(** * C64: stability *)
Theorem C64_stability : forall n PT p sym A q,
  built n PT p sym A -> valid q -> num_nodes q = n ->
  sp_stability A q = stability (toarray A) q.
Proof.
  intros n PT p sym A q _ Hv Hn. rewrite <- stability_spec by exact Hv.
  now apply (stability_dense n).
Qed.

(** * C65: the result is not worse than singletons *)
Definition C65_statement : Prop :=
  forall setord orders n PT p sym A thr nmeta nsub,
  is_iteration_order setord -> shuffles orders -> 0 < n -> usable n PT p sym A ->
  exists q k, sp_find_louvain setord orders A thr nmeta nsub (part_default n) = LDone q k /\
    valid q /\ num_nodes q = n /\
    (stability (toarray A) (part_default n) <= stability (toarray A) q)%num.

(** what from_T returns can be clustered *)
Lemma sum_as_list (v : list num) n : length v = n -> sumL (fun x => x) v = sumN n (fun i => nth i v 0%num).
Proof. intros <-. apply (sumL_nth v (fun x => x) 0%num). Qed.
Lemma from_T_usable n T q A : transition n T -> no_repetition T -> distribution n q ->
  (forall i, i < n -> (0 < nth i q 0)%num) -> from_T T (Some q) None = Some A ->
  exists PT p, usable n PT p false A /\ p = PVec q (vec_csr n q T) /\
    (positive_entries T -> positive_entries PT) /\
    (forall i j, i < n -> j < n -> value PT i j = (nth i q 0 * value T i j)%num) /\
    (forall i j, i < n -> j < n -> toarray A i j = (nth i q 0 * value T i j - nth i q 0 * pushed n T q j)%num).
Proof.
  intros (HT & T0 & T1) Hr (LQ & Q0 & Q1) Qp E.
  destruct (from_T_spec n T (Some q) None HT LQ I) as (PT & A' & E' & HB & HR & HV & HA).
  assert (A' = A) by congruence. subst A'. cbn [used_p1 used_p2] in HB, HR, HV, HA.
  exists PT, (PVec q (vec_csr n q T)). split; [|split; [reflexivity|split; [|split; [exact HV|]]]].
  - split; [exact HB|]. split; [|split; [|split]].
    + apply (no_repetition_ok n PT (proj1 HB)). intros i Hi. rewrite HR by exact Hi. rewrite map_map. cbn [fst]. apply Hr.
    + split; [now rewrite (sum_as_list q n LQ)|].
      rewrite (sum_as_list _ n) by (unfold vec_csr; now rewrite map_length, seq_length).
      rewrite (sumN_ext _ _ (fun j => sumN n (fun i => (nth i q 0 * value T i j)%num))) by (intros; now apply vec_csr_nth).
      unfold sumN in *. rewrite sumL_swap. rewrite (sumL_ext _ (fun i => nth i q 0%num)); [exact Q1|].
      intros i Hi. apply seq_In_iff in Hi. rewrite (sumL_scal_l (nth i q 0%num) (value T i)), (T1 i Hi). ring.
    + intros i j Hi Hj. rewrite HV by assumption. apply qmult_nonneg; auto.
    + intros i Hi. rewrite (sumN_ext _ _ (fun j => (nth i q 0 * value T i j)%num)) by (intros; now apply HV).
      unfold sumN. rewrite (sumL_scal_l (nth i q 0%num) (value T i)). specialize (T1 i Hi). unfold sumN in T1. rewrite T1.
      rewrite Qcmult_1_r. now apply Qp.
  - intros Hp i e He. destruct (lt_dec i n) as [Hi|Hi].
    + rewrite HR in He by exact Hi. apply in_map_iff in He. destruct He as (f & <- & Hf). cbn [snd].
      apply qmult_pos; [now apply Qp|now apply (Hp i)].
    + rewrite row_entries_oob in He; [destruct He|]. rewrite (proj1 (proj1 HB)). lia.
  - intros i j Hi Hj. rewrite HA by assumption. now rewrite vec_csr_nth.
Qed.

(** The zero test hides the covariance of the identity transition with probabilities
    1 - 1e-9 and 1e-9: all nodes are put in one cluster although singletons are better. *)
Definition keep_order (l : list nat) : list nat := l.
Definition in_order (level k n : nat) : list nat := seq 0 n.
Lemma tiny_usable A : from_T tinyT (Some tinyp) None = Some A -> exists PT p, usable 2 PT p false A /\
  (forall i j, i < 2 -> j < 2 -> (0 <= p1_at p i * p2_at p j)%num) /\
  (forall i j, i < 2 -> j < 2 -> toarray A i j = (nth i tinyp 0 * value tinyT i j - nth i tinyp 0 * pushed 2 tinyT tinyp j)%num).
Proof.
  intros EA.
  assert (HT : transition 2 tinyT).
  { split; [csr_ok_tac|]. split.
    - intros i j Hi Hj. destruct i as [|[|i]], j as [|[|j]]; try lia; vm_compute; discriminate.
    - intros i Hi. destruct i as [|[|i]]; try lia; num_compute. }
  assert (HQ : distribution 2 tinyp).
  { split; [reflexivity|]. split; [|num_compute].
    intros i Hi. destruct i as [|[|i]]; try lia; vm_compute; discriminate. }
  destruct (from_T_usable 2 tinyT tinyp A HT) as (PT & p & HU & Ep & _ & _ & HA); [norep_tac 2|exact HQ| |exact EA|].
  { intros i Hi. destruct i as [|[|i]]; try lia; vm_compute; reflexivity. }
  exists PT, p. split; [exact HU|]. split; [|exact HA]. subst p.
  intros i j Hi Hj. destruct i as [|[|i]], j as [|[|j]]; try lia; vm_compute; discriminate.
Qed.
Theorem C65_refuted : ~ C65_statement.
Proof.
  intros H.
  destruct (C31_tolerance_refuted) as (A & EA & HZ & _).
  destruct (tiny_usable A EA) as (PT & p & HU & _ & HA).
  destruct (H keep_order in_order 2 PT p false A 0%num 10 10) as (q & k & E & _ & _ & Hle).
  - intros l. apply Permutation_refl.
  - intros level j n. apply Permutation_refl.
  - lia.
  - exact HU.
  - unfold sp_find_louvain in E. rewrite HZ in E. injection E as <- <-.
    assert (Es : forall r, num_nodes r = 2 -> stability (toarray A) r =
       stability (fun i j => (nth i tinyp 0 * value tinyT i j - nth i tinyp 0 * pushed 2 tinyT tinyp j)%num) r).
    { intros r Hn. unfold stability. rewrite Hn. apply sumN_ext. intros i Hi. apply sumN_ext. intros j Hj.
      now rewrite HA. }
    rewrite !Es in Hle by reflexivity. vm_compute in Hle. apply Hle. reflexivity.
Qed.

(** Otherwise the search completes with a partition that is not worse than singletons, for
    every visiting order, and after at most n_meta_iter_max + 1 levels. *)
Theorem C65_not_worse_partial : forall setord orders n PT p sym A thr nmeta nsub,
  is_iteration_order setord -> shuffles orders -> 0 < n -> usable n PT p sym A -> is_all_zeros A = false ->
  exists q k, sp_find_louvain setord orders A thr nmeta nsub (part_default n) = LDone q k /\
    valid q /\ no_empty (cluster_list q) /\ num_nodes q = n /\ k <= nmeta + 1 /\
    (stability (toarray A) (part_default n) <= stability (toarray A) q)%num.
Proof.
  intros setord orders n PT p sym A thr nmeta nsub Hso Hsh Hn HU Hz.
  destruct (sp_find_louvain_spec setord orders n PT p sym A thr nmeta nsub Hso Hsh Hn HU Hz)
    as (q & k & E & Hv & Hne & Hnq & Hle & Hk).
  exists q, k. repeat (split; [assumption|]). rewrite !stability_spec in Hle by (try exact Hv; apply default_valid). exact Hle.
Qed.
(** When the matrix is declared zero one cluster is returned.  For a covariance (rows summing
    to zero) the stability of every partition is then within n^2 1e-8 + 1e-5 of zero. *)
Lemma sumN_const_b n (c : num) : sumN n (fun _ => c) = (qn n * c)%num.
Proof. unfold sumN. rewrite sumL_const, seq_length. reflexivity. Qed.
Theorem C65_zero_partial : forall setord orders n PT p sym A thr nmeta nsub,
  usable n PT p sym A -> is_all_zeros A = true ->
  (forall i j, i < n -> j < n -> (0 <= p1_at p i * p2_at p j)%num) ->
  (forall i, i < n -> sumN n (toarray A i) = 0%num) ->
  sp_find_louvain setord orders A thr nmeta nsub (part_default n) = LDone (full_partition n) 0 /\
  forall q, num_nodes q = n ->
    (qabs (stability (toarray A) q) <=
     qn n * (qn n * (qn n * qf 1 100000000 + qf 1 100000 * sumN n (fun i => sumN n (fun j => p1_at p i * p2_at p j)))))%num.
Proof.
  intros setord orders n PT p sym A thr nmeta nsub HU Hz H0 Hs. split; [unfold sp_find_louvain; now rewrite Hz|].
  intros q Hn.
  set (t := sumN n (fun i => sumN n (fun j => (p1_at p i * p2_at p j)%num))).
  set (b := (qn n * qf 1 100000000 + qf 1 100000 * t)%num).
  assert (Hb : forall i j, i < n -> j < n -> (qabs (toarray A i j) <= b)%num).
  { intros i j Hi Hj. destruct HU as (HA & Hr & _).
    eapply Qcle_trans; [apply (proj2 (C31_zeros_partial n PT p sym A HA Hr) H0 Hs Hz i j Hi Hj)|].
    unfold b. assert (Hle : (sumN n (fun j => (p1_at p i * p2_at p j)%num) <= t)%num).
    { unfold t. apply (sumL_nonneg_term (fun i => sumN n (fun j => (p1_at p i * p2_at p j)%num))); [|now apply seq_In_iff].
      intros a Ha. apply seq_In_iff in Ha. apply sumN_nonneg. intros; now apply H0. }
    revert Hle. generalize (sumN n (fun j => (p1_at p i * p2_at p j)%num)) t (qn n). unfold qf. qlra. }
  assert (Hb0 : (0 <= b)%num).
  { unfold b. apply Qcle_trans with (qn n * qf 1 100000000)%num.
    - apply qmult_nonneg; [apply qn_nonneg|qcompute].
    - assert (Ht : (0 <= t)%num) by (apply sumN_nonneg; intros; apply sumN_nonneg; intros; now apply H0).
      revert Ht. generalize t (qn n). unfold qf. qlra. }
  assert (Hc : forall i, i < n -> (- (qn n * b) <= sumN n (fun j => if sameb q i j then toarray A i j else 0) /\
             sumN n (fun j => if sameb q i j then toarray A i j else 0) <= qn n * b)%num).
  { intros i Hi. assert (Hj : forall j, j < n -> (- b <= (if sameb q i j then toarray A i j else 0) /\ (if sameb q i j then toarray A i j else 0) <= b)%num).
    { intros j Hj. specialize (Hb i j Hi Hj). apply qabs_le in Hb. destruct (sameb q i j); [exact Hb|].
      split; revert Hb0; generalize b; qlra. }
    rewrite <- (sumN_const_b n b). split.
    - unfold sumN at 1. rewrite <- sumL_opp. apply sumL_le. intros j Hjs. apply seq_In_iff in Hjs. apply (Hj j Hjs).
    - apply sumL_le. intros j Hjs. apply seq_In_iff in Hjs. apply (Hj j Hjs). }
  fold b. unfold stability. rewrite Hn. apply qabs_le_intro.
  - rewrite <- (sumN_const_b n (qn n * b)%num). unfold sumN at 1. rewrite <- sumL_opp. apply sumL_le. intros i Hi. apply seq_In_iff in Hi. apply (Hc i Hi).
  - rewrite <- (sumN_const_b n (qn n * b)%num). apply sumL_le. intros i Hi. apply seq_In_iff in Hi. apply (Hc i Hi).
Qed.

Example C65_zero_applies : exists PT p A, usable 2 PT p false A /\ is_all_zeros A = true /\
  (forall i j, i < 2 -> j < 2 -> (0 <= p1_at p i * p2_at p j)%num) /\
  (forall i, i < 2 -> sumN 2 (toarray A i) = 0%num).
Proof.
  destruct (C31_tolerance_refuted) as (A & EA & HZ & _).
  destruct (tiny_usable A EA) as (PT & p & HU & H0 & HA). exists PT, p, A.
  split; [exact HU|]. split; [exact HZ|]. split; [exact H0|].
  intros i Hi. rewrite (sumN_ext _ _ _ (fun j Hj => HA i j Hi Hj)).
  destruct i as [|[|i]]; try lia; num_compute.
Qed.

(** * C66: SparseClustering and Clustering take the same path *)
Theorem C66_same_as_dense : forall setord orders n T q A thr nmeta nsub,
  is_iteration_order setord -> by_set setord -> shuffles orders -> 0 < n ->
  transition n T -> no_repetition T -> positive_entries T ->
  distribution n q -> (forall i, i < n -> (0 < nth i q 0)%num) ->
  from_T T (Some q) None = Some A ->
  let S := fun i j => (nth i q 0 * value T i j - nth i q 0 * pushed n T q j)%num in
  is_all_zeros A = false -> S_is_zero n S = false ->
  sp_find_louvain setord orders A thr nmeta nsub (part_default n) =
  find_louvain setord orders (value T) S thr nmeta nsub (part_default n).
Proof.
  intros setord orders n T q A thr nmeta nsub Hso Hset Hsh Hn HT Hr Hp HQ Qp E S Hz HzS.
  destruct (from_T_usable n T q A HT Hr HQ Qp E) as (PT & p & HU & _ & Hpe & HV & HA). specialize (Hpe Hp).
  unfold sp_find_louvain, find_louvain. rewrite Hz, (ac_copy_id n PT p false A (proj1 HU)).
  change (num_nodes (part_default n)) with n. destruct (Nat.eqb_spec n 0) as [->|_]; [lia|]. rewrite HzS, part_of_list_default.
  destruct HT as (HT & T0 & T1).
  assert (HF : has_out_flow n (value T)).
  { split; [exact T0|]. intros i Hi. rewrite (T1 i Hi). reflexivity. }
  assert (HS : as_sparse n (value T) S PT A).
  { split; [exact HA|]. intros i j Hi Hj. rewrite HV by assumption. specialize (Qp i Hi). specialize (T0 i j Hi Hj). split; intros H.
    - apply qle_lt_or_eq in T0. destruct T0 as [|H0]; [assumption|]. rewrite <- H0 in H. exfalso.
      replace (nth i q 0 * 0)%num with 0%num in H by ring. apply Qclt_not_le in H. apply H, Qcle_refl.
    - now apply qmult_pos. }
  apply (meta_loops_agree setord orders n (value T) S PT p false A); try assumption.
  - apply default_valid.
  - apply default_no_empty.
  - reflexivity.
  - intros _. rewrite default_length. split; [reflexivity|]. exists PT, p. split; [exact HU|]. split; [exact Hpe|exact HS].
Qed.

(** A walk on four states: two pairs, mostly staying inside. *)
Definition fourT : csr := mkCsr [qf 1 2; qf 1 2; qf 1 2; qf 1 2; qf 1 10; qf 9 20; qf 9 20; qf 1 2; qf 1 2]
  [0; 1; 1; 0; 0; 2; 3; 3; 2] [0; 2; 4; 7; 9].
Definition fourq : list num := [qf 1 4; qf 1 4; qf 1 4; qf 1 4].
Definition fourA : autocov := match from_T fourT (Some fourq) None with Some A => A | None => exA end.
Example four_ok : transition 4 fourT /\ no_repetition fourT /\ positive_entries fourT /\ distribution 4 fourq /\
  (forall i, i < 4 -> (0 < nth i fourq 0)%num) /\ from_T fourT (Some fourq) None = Some fourA.
Proof.
  split; [split; [csr_ok_tac|split]|]; [| |split; [norep_tac 4|split; [|split; [split; [reflexivity|split]|split]]]].
  - intros i j Hi Hj. destruct i as [|[|[|[|i]]]], j as [|[|[|[|j]]]]; try lia; vm_compute; discriminate.
  - intros i Hi. destruct i as [|[|[|[|i]]]]; try lia; num_compute.
  - intros i e. destruct i as [|[|[|[|i]]]].
    5:{ rewrite row_entries_oob by (simpl; lia). intros []. }
    all: intros H; cbn in H; repeat (destruct H as [<-|H]; [reflexivity|]); destruct H.
  - intros i Hi. destruct i as [|[|[|[|i]]]]; try lia; vm_compute; discriminate.
  - num_compute.
  - intros i Hi. destruct i as [|[|[|[|i]]]]; try lia; vm_compute; reflexivity.
  - vm_compute. reflexivity.
Qed.
(** the hypotheses can be met, and the two pairs are found *)
Example C65_applies : (exists PT p, usable 4 PT p false fourA) /\ is_all_zeros fourA = false /\
  sp_find_louvain keep_order in_order fourA 0%num 10 10 (part_default 4) = LDone (part_of_list 4 [[0; 1]; [2; 3]]) 2.
Proof.
  destruct four_ok as (HT & Hr & Hp & HQ & Qp & E). split; [|split; vm_compute; reflexivity].
  destruct (from_T_usable 4 fourT fourq fourA HT Hr HQ Qp E) as (PT & p & HU & _). exists PT, p. exact HU.
Qed.
(** an iteration order that depends on the set only: increasing order *)
Definition increasing (l : list nat) : list nat := map fst (sort_entries (map (fun x => (x, 0%num)) l)).
Lemma sorted_perm_eq l : forall l', StronglySorted le l -> StronglySorted le l' -> Permutation l l' -> l = l'.
Proof.
  induction l as [|a l IH]; intros l' H1 H2 HP.
  - apply Permutation_nil in HP. now subst.
  - destruct l' as [|b l']; [apply Permutation_sym in HP; now apply Permutation_nil in HP|].
    apply StronglySorted_inv in H1, H2. destruct H1 as [S1 F1], H2 as [S2 F2]. rewrite Forall_forall in F1, F2.
    assert (a = b).
    { assert (Ha : In a (b :: l')) by (apply (Permutation_in a HP); now left).
      assert (Hb : In b (a :: l)) by (apply (Permutation_in b (Permutation_sym HP)); now left).
      destruct Ha as [Ha|Ha]; [now symmetry|]. destruct Hb as [Hb|Hb]; [assumption|].
      specialize (F1 _ Hb). specialize (F2 _ Ha). lia. }
    subst b. f_equal. apply IH; try assumption. now apply Permutation_cons_inv in HP.
Qed.
Lemma increasing_perm l : Permutation (increasing l) l.
Proof. unfold increasing. rewrite sort_entries_perm, map_map. cbn. now rewrite map_id. Qed.
Example C66_applies : is_iteration_order increasing /\ by_set increasing /\ shuffles in_order /\
  S_is_zero 4 (fun i j => (nth i fourq 0 * value fourT i j - nth i fourq 0 * pushed 4 fourT fourq j)%num) = false.
Proof.
  split; [exact increasing_perm|]. split; [|split; [intros level k n; apply Permutation_refl|vm_compute; reflexivity]].
  intros l l' H. apply sorted_perm_eq; try apply sort_entries_sorted.
  rewrite !increasing_perm. exact H.
Qed.

Print Assumptions C64_stability.
Print Assumptions C65_refuted.
Print Assumptions C65_not_worse_partial.
Print Assumptions C65_zero_partial.
Print Assumptions C66_same_as_dense.
