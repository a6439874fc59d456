(** Proofs about [static_clustering]. *)
From Verif Require Import Base PartitionModel PartitionSpec PartitionProofs LouvainModel LouvainSpec LouvainProofs
  EventsModel EventsSpec TransModel TransSpec MatProofs StaticModel StaticSpec.

(** ** The walk *)
Section Walk.
Context (n : nat) (A : mat).
Hypothesis A0 : forall i j, i < n -> j < n -> (0 <= A i j)%num.
Lemma degs_strength i : degs n A i = strength n A i. Proof. reflexivity. Qed.
Lemma strength_nonneg i : i < n -> (0 <= strength n A i)%num.
Proof. intros Hi. apply sumN_nonneg. intros j Hj. now apply A0. Qed.
Lemma entry_le i j : i < n -> j < n -> (A i j <= strength n A i)%num.
Proof. intros Hi Hj. apply (sumL_nonneg_term (A i)); [|now apply seq_In_iff]. intros a Ha. apply seq_In_iff in Ha. now apply A0. Qed.
Lemma zero_row i j : i < n -> j < n -> strength n A i = 0%num -> A i j = 0%num.
Proof. intros Hi Hj E. assert (H := entry_le i j Hi Hj). rewrite E in H. apply Qcle_antisym; [exact H|now apply A0]. Qed.
Lemma Tstat_walks : walks n A (Tstat n A).
Proof.
  intros i j Hi Hj. unfold Tstat, degs_m1, A_sl. change (degs n A i) with (strength n A i). destruct (qeqb_spec (strength n A i) 0%num) as [E|E]; split; intros H; try contradiction.
  - rewrite andb_true_r. destruct (i =? j); [now field|]. rewrite (zero_row i j Hi Hj E). ring.
  - rewrite andb_false_r. field. exact H.
Qed.
Lemma walks_unique W W' : walks n A W -> walks n A W' -> eqm n W W'.
Proof.
  intros H H' i j Hi Hj. destruct (H i j Hi Hj) as [H1 H2], (H' i j Hi Hj) as [H1' H2'].
  destruct (Qc_eq_dec (strength n A i) 0%num) as [E|E]; [rewrite (H2 E), (H2' E); reflexivity|].
  replace (W i j) with (A i j / strength n A i)%num by (rewrite <- (H1 E); now field).
  replace (W' i j) with (A i j / strength n A i)%num by (rewrite <- (H1' E); now field). reflexivity.
Qed.
Lemma walks_stochastic W : walks n A W -> stochastic n W.
Proof.
  intros H. split.
  - intros i j Hi Hj. destruct (H i j Hi Hj) as [H1 H2]. destruct (Qc_eq_dec (strength n A i) 0%num) as [E|E].
    + rewrite (H2 E). destruct (i =? j); qcompute.
    + replace (W i j) with (A i j / strength n A i)%num by (rewrite <- (H1 E); now field). apply qdiv_nonneg; [now apply A0|].
      destruct (qle_lt_or_eq _ _ (strength_nonneg i Hi)) as [L|L]; [exact L|now rewrite <- L in E].
  - intros i Hi. destruct (Qc_eq_dec (strength n A i) 0%num) as [E|E].
    + rewrite (sumN_ext _ _ (ident i)); [now apply ident_sum|]. intros j Hj. now apply (H i j Hi Hj).
    + rewrite (sumN_ext _ _ (fun j => (/ strength n A i * A i j)%num)).
      * rewrite (sumN_scal_l n (/ strength n A i)%num (fun j => A i j)). change (sumN n (fun j => A i j)) with (strength n A i). now field.
      * intros j Hj. rewrite <- (proj1 (H i j Hi Hj) E). now field.
Qed.
Lemma total_nonneg : (0 <= total_strength n A)%num.
Proof. apply sumN_nonneg. intros i Hi. now apply strength_nonneg. Qed.
Lemma total_pos : (exists i j, i < n /\ j < n /\ A i j <> 0%num) -> (0 < total_strength n A)%num.
Proof.
  intros (i & j & Hi & Hj & H). destruct (qle_lt_or_eq _ _ total_nonneg) as [L|L]; [exact L|]. exfalso. apply H.
  apply zero_row; [exact Hi|exact Hj|]. apply Qcle_antisym; [|now apply strength_nonneg].
  rewrite L. apply (sumL_nonneg_term (strength n A)); [|now apply seq_In_iff]. intros a Ha. apply seq_In_iff in Ha. now apply strength_nonneg.
Qed.
(** the density of the undirected walk *)
Lemma density_strength : (0 < total_strength n A)%num -> density n (fun i => (strength n A i / total_strength n A)%num).
Proof.
  intros H. split.
  - intros i Hi. apply qdiv_nonneg; [now apply strength_nonneg|exact H].
  - rewrite (sumN_ext _ _ (fun i => (/ total_strength n A * strength n A i)%num)) by (intros; unfold Qcdiv; ring).
    rewrite sumN_scal_l. fold (total_strength n A). field. now apply qneq_pos.
Qed.
Lemma strength_flow W i j : walks n A W -> undirected n A -> i < n -> j < n -> (strength n A i * W i j = A i j)%num.
Proof.
  intros H HU Hi Hj. destruct (Qc_eq_dec (strength n A i) 0%num) as [E|E]; [|now apply (H i j Hi Hj)].
  rewrite E, (zero_row i j Hi Hj E). ring.
Qed.
Lemma balanced_walk W : walks n A W -> undirected n A -> balanced n (fun i => (strength n A i / total_strength n A)%num) W.
Proof.
  intros H HU i j Hi Hj. cbn beta. unfold Qcdiv.
  replace (strength n A i * / total_strength n A * W i j)%num with (/ total_strength n A * (strength n A i * W i j))%num by ring.
  replace (strength n A j * / total_strength n A * W j i)%num with (/ total_strength n A * (strength n A j * W j i))%num by ring.
  rewrite !(strength_flow W) by assumption. now rewrite (HU i j).
Qed.
End Walk.
Lemma balanced_invariant n p W : rows_to_one n W -> balanced n p W -> invariant n p W.
Proof.
  intros H HB j Hj. rewrite (sumN_ext _ _ (fun i => (p j * W j i)%num)) by (intros; now apply HB). rewrite sumN_scal_l.
  assert (E := H j Hj). cbv beta in E. change (fun j0 => W j j0) with (W j) in E. rewrite E. ring.
Qed.
Lemma invariant_ext n p p' W W' : (forall i, i < n -> p i = p' i) -> eqm n W W' -> invariant n p W -> invariant n p' W'.
Proof. intros Hp HW H j Hj. rewrite <- Hp, <- (H j Hj) by exact Hj. apply sumN_ext. intros i Hi. now rewrite Hp, HW. Qed.
Lemma balanced_ext n p p' W W' : (forall i, i < n -> p i = p' i) -> eqm n W W' -> balanced n p W -> balanced n p' W'.
Proof. intros Hp HW H i j Hi Hj. rewrite <- !Hp, <- !HW by assumption. now apply H. Qed.

(** ** Powers *)
Lemma power_comm n M k : eqm n (mmul n M (matrix_power n M k)) (mmul n (matrix_power n M k) M).
Proof.
  induction k as [|k IH]; cbn [matrix_power].
  - eapply eqm_trans; [apply mmul_ident_r|]. apply eqm_sym, mmul_ident_l.
  - eapply eqm_trans; [apply mmul_ext; [apply eqm_refl|exact IH]|]. apply eqm_sym, mmul_assoc.
Qed.
Lemma power_stochastic n M k : stochastic n M -> stochastic n (matrix_power n M k).
Proof. intros H. induction k as [|k IH]; cbn [matrix_power]; [apply stochastic_ident|now apply stochastic_mmul]. Qed.
Lemma power_invariant n p M k : invariant n p M -> invariant n p (matrix_power n M k).
Proof.
  intros H. induction k as [|k IH]; intros j Hj; cbn [matrix_power].
  - rewrite (sumN_ext _ _ (fun i => (ident j i * p i)%num)).
    + assert (E := mmul_ident_l n (fun i _ => p i) j j Hj Hj). unfold mmul in E. exact E.
    + intros i Hi. unfold ident. rewrite (Nat.eqb_sym i j). ring.
  - unfold mmul. rewrite (sumN_ext _ _ (fun i => sumN n (fun k0 => (p i * M i k0 * matrix_power n M k k0 j)%num))).
    + rewrite sumN_swap. rewrite (sumN_ext _ _ (fun l => (p l * matrix_power n M k l j)%num)); [now apply IH|].
      intros l Hl. rewrite sumN_scal_r. now rewrite (H l Hl).
    + intros i Hi. rewrite <- sumN_scal_l. apply sumN_ext. intros l Hl. ring.
Qed.
Lemma power_balanced n p M k : balanced n p M -> balanced n p (matrix_power n M k).
Proof.
  intros H. induction k as [|k IH]; intros i j Hi Hj.
  - cbn [matrix_power]. unfold ident. rewrite (Nat.eqb_sym j i). destruct (Nat.eqb_spec i j) as [->|]; ring.
  - cbn [matrix_power].
    rewrite (power_comm n M k j i Hj Hi). unfold mmul. rewrite <- !sumN_scal_l. apply sumN_ext. intros l Hl.
    replace (p i * (M i l * matrix_power n M k l j))%num with (p i * M i l * matrix_power n M k l j)%num by ring.
    rewrite (H i l Hi Hl). replace (p l * M l i * matrix_power n M k l j)%num with (p l * matrix_power n M k l j * M l i)%num by ring.
    rewrite (IH l j Hl Hj). ring.
Qed.

(** ** Linearised *)
Lemma linear_entry x W i j : mminus ident (mscal x (mminus ident W)) i j = ((1 - x) * ident i j + x * W i j)%num.
Proof. unfold mminus, mscal. ring. Qed.
Lemma linear_rows n x W : rows_to_one n W -> rows_to_one n (mminus ident (mscal x (mminus ident W))).
Proof.
  intros H i Hi. rewrite (sumN_ext _ _ (fun j => ((1 - x) * ident i j + x * W i j)%num)) by (intros; apply linear_entry).
  rewrite sumN_add, !sumN_scal_l. assert (E := H i Hi). change (sumN n (W i) = 1%num) in E.
  change (sumN n (fun j => W i j)) with (sumN n (W i)). change (sumN n (fun j => ident i j)) with (sumN n (ident i)). rewrite E, ident_sum by exact Hi. ring.
Qed.
Lemma linear_invariant n p x W : invariant n p W -> invariant n p (mminus ident (mscal x (mminus ident W))).
Proof.
  intros H j Hj. rewrite (sumN_ext _ _ (fun i => ((1 - x) * (p i * ident i j) + x * (p i * W i j))%num)).
  - rewrite sumN_add, !sumN_scal_l, (H j Hj). assert (E := power_invariant n p W 0 H j Hj). cbn [matrix_power] in E. rewrite E. ring.
  - intros i Hi. rewrite linear_entry. ring.
Qed.
Lemma linear_balanced n p x W : balanced n p W -> balanced n p (mminus ident (mscal x (mminus ident W))).
Proof.
  intros H i j Hi Hj. rewrite !linear_entry. replace (p i * ((1 - x) * ident i j + x * W i j))%num with ((1 - x) * (p i * ident i j) + x * (p i * W i j))%num by ring.
  rewrite (H i j Hi Hj). unfold ident. rewrite (Nat.eqb_sym j i). destruct (Nat.eqb_spec i j) as [->|]; ring.
Qed.
Lemma linear_stochastic n x W : (0 <= x)%num -> (x <= 1)%num -> stochastic n W -> stochastic n (mminus ident (mscal x (mminus ident W))).
Proof.
  intros H0 H1 [HW HR]. split; [|now apply linear_rows].
  intros i j Hi Hj. rewrite linear_entry. specialize (HW i j Hi Hj). assert (Hd : (0 <= ident i j)%num) by (unfold ident; destruct (i =? j); qcompute).
  assert (Ha : (0 <= (1 - x) * ident i j)%num) by (apply qmult_nonneg; [revert H1; qlra|exact Hd]).
  assert (Hb : (0 <= x * W i j)%num) by now apply qmult_nonneg. revert Ha Hb. generalize ((1 - x) * ident i j)%num (x * W i j)%num. qlra.
Qed.
Lemma minus_minus n W : eqm n (mminus ident (mminus ident W)) W.
Proof. intros i j _ _. unfold mminus. ring. Qed.

(** ** All modes *)
Lemma power_1 n M : eqm n (matrix_power n M 1) M.
Proof. cbn [matrix_power]. apply mmul_ident_r. Qed.
Section Modes.
Context (n : nat) (E : num -> mat -> mat) (A : mat) (p : nat -> num).
Hypothesis HE : exponential n E.
Hypothesis HS : stochastic n (Tstat n A).
Lemma exp_facts x : (0 <= x)%num ->
  stochastic n (E x (mminus ident (Tstat n A))) /\
  (invariant n p (Tstat n A) -> invariant n p (E x (mminus ident (Tstat n A)))) /\
  (balanced n p (Tstat n A) -> balanced n p (E x (mminus ident (Tstat n A)))).
Proof.
  intros Hx. destruct (HE x (mminus ident (Tstat n A)) Hx) as (H1 & H2 & H3 & _).
  - apply (stochastic_ext n (Tstat n A)); [apply eqm_sym, minus_minus|exact HS].
  - split; [exact H1|]. split; intros H; [apply H2|apply H3].
    + apply (invariant_ext n p p (Tstat n A)); [reflexivity|apply eqm_sym, minus_minus|exact H].
    + apply (balanced_ext n p p (Tstat n A)); [reflexivity|apply eqm_sym, minus_minus|exact H].
Qed.
Lemma transition_facts d l t : (0 <= time_value t)%num ->
  rows_to_one n (transition n E d l t A) /\
  (time_ok d l t -> stochastic n (transition n E d l t A)) /\
  (invariant n p (Tstat n A) -> invariant n p (transition n E d l t A)) /\
  (balanced n p (Tstat n A) -> balanced n p (transition n E d l t A)).
Proof.
  intros Ht.
  assert (HL : ~ (d = true /\ exists k, t = PyInt k) ->
     let x := time_value t in
     let T := if l then mminus ident (mscal x (mminus ident (Tstat n A))) else E x (mminus ident (Tstat n A)) in
     rows_to_one n T /\ (time_ok d l t -> stochastic n T) /\ (invariant n p (Tstat n A) -> invariant n p T) /\ (balanced n p (Tstat n A) -> balanced n p T)).
  { intros Hn x T. unfold T. destruct l.
    - split; [apply linear_rows; exact (proj2 HS)|]. split; [|split; [apply linear_invariant|apply linear_balanced]].
      intros [_ Hok]. destruct (Hok eq_refl) as [H|H]; [|contradiction]. now apply linear_stochastic.
    - destruct (exp_facts x Ht) as (H1 & H2 & H3). split; [exact (proj2 H1)|]. now split. }
  unfold transition. destruct d; [destruct t as [k|x]|].
  - split; [exact (proj2 (power_stochastic n _ k HS))|]. split; [intros _; now apply power_stochastic|]. split; [apply power_invariant|apply power_balanced].
  - apply HL. intros [_ [k Hk]]. discriminate.
  - apply HL. intros [Hk _]. discriminate.
Qed.
End Modes.

(** ** Modularity *)
Lemma block_ext (S S' : mat) c : (forall i j, In i c -> In j c -> S i j = S' i j) -> block S c c = block S' c c.
Proof. intros H. unfold block. apply sumL_ext. intros i Hi. apply sumL_ext. intros j Hj. now apply H. Qed.
Lemma sumL_ident c i : NoDup c -> In i c -> sumL (ident i) c = 1%num.
Proof.
  intros Hd Hi. rewrite (sumL_ext _ (fun j => if j =? i then 1%num else 0%num)); [now apply (sumL_delta c i (fun _ => 1%num))|].
  intros j _. unfold ident. now rewrite Nat.eqb_sym.
Qed.
Lemma sum_clusters f q : valid q -> sumL (sumL f) (cluster_list q) = sumN (num_nodes q) f.
Proof.
  intros [HP _]. apply partitions_perm in HP. unfold sumN. rewrite <- (sumL_perm f _ _ HP). now rewrite sumL_concat.
Qed.
Lemma cluster_facts q c : valid q -> In c (cluster_list q) -> NoDup c /\ forall i, In i c -> i < num_nodes q.
Proof.
  intros [(HN & _ & HC) _] Hc. rewrite Forall_forall in HN. split; [now apply HN|]. intros i Hi. apply HC.
  destruct (In_nth_error _ _ Hc) as [k Hk]. now exists k, c.
Qed.
Section Modularity.
Context (n : nat) (A : mat).
Hypothesis A0 : forall i j, i < n -> j < n -> (0 <= A i j)%num.
Hypothesis HU : undirected n A.
Hypothesis Hpos : (0 < total_strength n A)%num.
Let p := fun i => (strength n A i / total_strength n A)%num.
Lemma linear_block x T c : eqm n T (mminus ident (mscal x (mminus ident (Tstat n A)))) -> NoDup c -> (forall i, In i c -> i < n) ->
  block (compute_S p p T) c c =
  ((1 - x) * sumL p c + x * (weight_inside A c / total_strength n A)
   - (cluster_strength n A c / total_strength n A) * (cluster_strength n A c / total_strength n A))%num.
Proof.
  intros HT Hd Hc. set (m2 := total_strength n A).
  rewrite (block_ext _ (fun i j => ((1 - x) * (p i * ident i j) + x * / m2 * A i j - p i * p j)%num)).
  2:{ intros i j Hi Hj. unfold compute_S. rewrite (HT i j) by auto. rewrite linear_entry.
      replace (p i * ((1 - x) * ident i j + x * Tstat n A i j))%num with ((1 - x) * (p i * ident i j) + x * (p i * Tstat n A i j))%num by ring.
      replace (p i * Tstat n A i j)%num with (/ m2 * A i j)%num; [ring|].
      rewrite <- (strength_flow n A A0 (Tstat n A) i j (Tstat_walks n A A0) HU (Hc i Hi) (Hc j Hj)). unfold p, Qcdiv. fold m2. ring. }
  unfold block.
  rewrite (sumL_ext _ (fun i => ((1 - x) * p i + x * / m2 * sumL (A i) c - p i * sumL p c)%num)).
  2:{ intros i Hi. rewrite sumL_sub, sumL_add, !sumL_scal_l. rewrite (sumL_ident c i Hd Hi). ring. }
  rewrite sumL_sub, sumL_add, !sumL_scal_l, sumL_scal_r. change (sumL (fun i => sumL (A i) c) c) with (weight_inside A c).
  assert (E : sumL p c = (cluster_strength n A c / m2)%num).
  { unfold p, cluster_strength, Qcdiv. now rewrite sumL_scal_r. }
  rewrite E. unfold Qcdiv. ring.
Qed.
Lemma linear_stability x T q : eqm n T (mminus ident (mscal x (mminus ident (Tstat n A)))) -> valid q -> num_nodes q = n ->
  stability (compute_S p p T) q =
  ((1 - x) * (1 - sumL (fun c => (cluster_strength n A c / total_strength n A) * (cluster_strength n A c / total_strength n A)) (cluster_list q)) + x * modularity n A q)%num.
Proof.
  intros HT Hq Hn. rewrite <- stability_spec by exact Hq. rewrite stability_eq.
  rewrite (sumL_ext _ (fun c => ((1 - x) * sumL p c + (x * (weight_inside A c / total_strength n A - (cluster_strength n A c / total_strength n A) * (cluster_strength n A c / total_strength n A))
     - (1 - x) * ((cluster_strength n A c / total_strength n A) * (cluster_strength n A c / total_strength n A))))%num)).
  2:{ intros c Hc. destruct (cluster_facts q c Hq Hc) as [Hd Hr]. rewrite Hn in Hr. rewrite (linear_block x T c HT Hd Hr). ring. }
  rewrite sumL_add, sumL_sub, !sumL_scal_l. rewrite (sum_clusters p q Hq), Hn.
  destruct (density_strength n A A0 Hpos) as [_ E]. fold p in E. rewrite E. unfold modularity. ring.
Qed.
End Modularity.

(** ** Perron's theorem *)
Lemma qabs_sum n f : (qabs (sumN n f) <= sumN n (fun i => qabs (f i)))%num.
Proof.
  induction n as [|n IH]; [unfold sumN; cbn [seq]; rewrite !sumL_nil; vm_compute; discriminate|]. rewrite !sumN_S.
  revert IH. unfold qabs. generalize (sumN n f) (sumN n (fun i => if qltb (f i) 0 then (- f i)%num else f i)) (f n). intros a b c IH.
  destruct (qltb_spec a 0%num), (qltb_spec c 0%num), (qltb_spec (a + c)%num 0%num); revert IH; qlra.
Qed.
Section Perron.
Context (n : nat) (W : mat) (step : nat -> nat -> Prop).
Hypothesis HW : stochastic n W.
Hypothesis Hstep : forall i j, i < n -> j < n -> step i j -> (0 < W i j)%num.
Inductive reach : nat -> nat -> Prop := reach_nil i : i < n -> reach i i | reach_cons i j k : i < n -> j < n -> step i j -> reach j k -> reach i k.
Hypothesis Hreach : forall i j, i < n -> j < n -> reach i j.
(** a non-negative invariant vector that is positive somewhere is positive everywhere *)
Lemma positive_spreads u : (forall i, i < n -> (0 <= u i)%num) -> invariant n u W -> forall i j, reach i j -> (0 < u i)%num -> (0 < u j)%num.
Proof.
  intros H0 HI i j HR. induction HR as [|i j k Hi Hj Hs HR IH]; intros Hu; [exact Hu|]. apply IH. rewrite <- (HI j Hj).
  apply Qclt_le_trans with (u i * W i j)%num; [apply qmult_pos; [exact Hu|now apply Hstep]|].
  apply (sumL_nonneg_term (fun i => (u i * W i j)%num)); [|now apply seq_In_iff]. intros a Ha. apply seq_In_iff in Ha. apply qmult_nonneg; [now apply H0|now apply HW].
Qed.
Lemma abs_invariant v : invariant n v W -> invariant n (fun i => qabs (v i)) W.
Proof.
  intros HI.
  assert (Hle : forall j, j < n -> (0 <= sumN n (fun i => qabs (v i) * W i j) - qabs (v j))%num).
  { intros j Hj. assert (H := qabs_sum n (fun i => (v i * W i j)%num)). rewrite (HI j Hj) in H.
    rewrite (sumN_ext _ (fun i => qabs (v i * W i j)%num) (fun i => (qabs (v i) * W i j)%num)) in H.
    - revert H. generalize (qabs (v j)) (sumN n (fun i => (qabs (v i) * W i j)%num)). qlra.
    - intros i Hi. assert (Hw := proj1 HW i j Hi Hj). unfold qabs. destruct (qltb_spec (v i) 0%num) as [L|L], (qltb_spec (v i * W i j)%num 0%num) as [M|M]; try ring.
      + assert (0 <= (- v i) * W i j)%num by (apply qmult_nonneg; [revert L; qlra|exact Hw]).
        assert (v i * W i j = 0)%num as ->; [|]. { replace (- v i * W i j)%num with (- (v i * W i j))%num in H0 by ring. apply Qcle_antisym; [revert H0|revert M]; generalize (v i * W i j)%num; qlra. }
        assert (E : (v i * W i j = 0)%num). { replace (- v i * W i j)%num with (- (v i * W i j))%num in H0 by ring. apply Qcle_antisym; [revert H0|revert M]; generalize (v i * W i j)%num; qlra. }
        replace (- v i * W i j)%num with (- (v i * W i j))%num by ring. rewrite E. ring.
      + assert (0 <= v i * W i j)%num by (apply qmult_nonneg; [revert L; qlra|exact Hw]). exfalso. revert M H0. generalize (v i * W i j)%num. qlra. }
  assert (Hsum : sumN n (fun j => (sumN n (fun i => qabs (v i) * W i j) - qabs (v j))%num) = 0%num).
  { rewrite sumN_sub, sumN_swap. rewrite (sumN_ext _ (fun i => sumN n (fun j => (qabs (v i) * W i j)%num)) (fun i => qabs (v i))); [ring|].
    intros i Hi. rewrite sumN_scal_l. change (sumN n (fun j => W i j)) with (sumN n (W i)). rewrite (proj2 HW i Hi). ring. }
  intros j Hj. cbn beta.
  assert (E : (sumN n (fun i => qabs (v i) * W i j) - qabs (v j))%num = 0%num).
  { refine (sumL_nonneg_zero (fun j => (sumN n (fun i => qabs (v i) * W i j) - qabs (v j))%num) (seq 0 n) _ Hsum j _).
    - intros a Ha. apply seq_In_iff in Ha. exact (Hle a Ha).
    - apply seq_In_iff. exact Hj. }
  revert E. generalize (sumN n (fun i => (qabs (v i) * W i j)%num)) (qabs (v j)). intros a b E. replace a with (a - b + b)%num by ring. rewrite E. ring.
Qed.
(** all entries of an invariant vector that is not zero have the same sign *)
Lemma one_sign v : invariant n v W -> forall i, i < n -> v i <> 0%num ->
  (forall j, j < n -> (0 < v j)%num) \/ (forall j, j < n -> (v j < 0)%num).
Proof.
  intros HI i Hi Hv. assert (HA := abs_invariant v HI).
  assert (Hgen : forall s : num, (s = 1 \/ s = - (1))%num -> (0 < s * v i)%num -> forall j, j < n -> (0 < s * v j)%num).
  { intros s Hs Hp j Hj.
    assert (HU : invariant n (fun k => (qabs (v k) + s * v k)%num) W).
    { intros k Hk. rewrite (sumN_ext _ _ (fun i => (qabs (v i) * W i k + s * (v i * W i k))%num)) by (intros; ring).
      rewrite sumN_add, sumN_scal_l, (HI k Hk). assert (E := HA k Hk). cbn beta in E. now rewrite E. }
    assert (Ha : forall x, (0 <= qabs x + s * x)%num).
    { intros x. unfold qabs. destruct Hs as [-> | ->]; destruct (qltb_spec x 0%num) as [L|L]; revert L; qlra. }
    assert (H := positive_spreads _ (fun k _ => Ha (v k)) HU i j (Hreach i j Hi Hj)). cbn beta in H.
    assert (Hi' : (0 < qabs (v i) + s * v i)%num).
    { assert (0 <= qabs (v i))%num by apply qabs_nonneg. revert H0 Hp. generalize (qabs (v i)) (s * v i)%num. qlra. }
    specialize (H Hi'). revert H. unfold qabs. destruct Hs as [-> | ->]; destruct (qltb_spec (v j) 0%num) as [L|L]; revert L; qlra. }
  destruct (qltb_spec (v i) 0%num) as [L|L].
  - right. intros j Hj. assert (H := Hgen (- (1))%num (or_intror eq_refl) ltac:(revert L; qlra) j Hj). revert H. qlra.
  - left. intros j Hj. assert (Hp : (0 < v i)%num). { destruct (qle_lt_or_eq 0%num (v i)) as [H|H]; [revert L; qlra|exact H|]. now rewrite <- H in Hv. }
    assert (H := Hgen 1%num (or_introl eq_refl) ltac:(revert Hp; qlra) j Hj). revert H. qlra.
Qed.
Lemma sum_pos m f : (forall j, j < m -> (0 < f j)%num) -> 0 < m -> (0 < sumN m f)%num.
Proof.
  intros H Hm. destruct m as [|m]; [lia|]. rewrite sumN_S. assert (0 <= sumN m f)%num by (apply sumN_nonneg; intros; apply Qclt_le_weak, H; lia).
  assert (0 < f m)%num by (apply H; lia). revert H0 H1. generalize (sumN m f) (f m). qlra.
Qed.
Lemma perron v : invariant n v W -> (exists i, i < n /\ v i <> 0%num) ->
  sumN n v <> 0%num /\ (forall i, i < n -> (0 < v i / sumN n v)%num) /\ density n (fun i => (v i / sumN n v)%num) /\ invariant n (fun i => (v i / sumN n v)%num) W.
Proof.
  intros HI (i & Hi & Hv).
  assert (Hs : sumN n v <> 0%num /\ forall j, j < n -> (0 < v j / sumN n v)%num).
  { destruct (one_sign v HI i Hi Hv) as [H|H].
    - assert (Hp : (0 < sumN n v)%num) by (apply sum_pos; [exact H|lia]). split; [now apply qneq_pos|]. intros j Hj. unfold Qcdiv. apply qmult_pos; [now apply H|now apply qinv_pos].
    - assert (Hp : (0 < sumN n (fun j => - v j))%num) by (apply sum_pos; [|lia]; intros j Hj; specialize (H j Hj); revert H; qlra).
      assert (E : sumN n (fun j => (- v j)%num) = (- sumN n v)%num) by apply sumL_opp. rewrite E in Hp.
      assert (Hn : sumN n v <> 0%num) by (intros E0; rewrite E0 in Hp; revert Hp; qlra). split; [exact Hn|]. intros j Hj.
      replace (v j / sumN n v)%num with ((- v j) * / (- sumN n v))%num.
      + apply qmult_pos; [specialize (H j Hj); revert H; qlra|now apply qinv_pos].
      + field. split; [exact Hn|]. intros E0. apply Hn. replace (sumN n v) with (- - sumN n v)%num by ring. rewrite E0. ring. }
  destruct Hs as [Hs Hp]. split; [exact Hs|]. split; [exact Hp|]. split.
  - split; [intros j Hj; apply Qclt_le_weak; now apply Hp|].
    rewrite (sumN_ext _ _ (fun j => (/ sumN n v * v j)%num)) by (intros; unfold Qcdiv; ring). rewrite sumN_scal_l. change (sumN n (fun k => v k)) with (sumN n v). now field.
  - intros j Hj. rewrite (sumN_ext _ _ (fun i => (/ sumN n v * (v i * W i j))%num)) by (intros; unfold Qcdiv; ring).
    rewrite sumN_scal_l, (HI j Hj). unfold Qcdiv. ring.
Qed.
Lemma perron_unique p q : 0 < n -> density n p -> density n q -> invariant n p W -> invariant n q W -> forall i, i < n -> p i = q i.
Proof.
  intros Hn Hp Hq HIp HIq i Hi. destruct (Qc_eq_dec (p i) (q i)) as [E|E]; [exact E|]. exfalso.
  assert (HI : invariant n (fun i => (p i - q i)%num) W).
  { intros j Hj. rewrite (sumN_ext _ _ (fun i => (p i * W i j - q i * W i j)%num)) by (intros; ring). now rewrite sumN_sub, (HIp j Hj), (HIq j Hj). }
  destruct (perron _ HI) as (H & _).
  - exists i. split; [exact Hi|]. intros E0. apply E. replace (p i) with (p i - q i + q i)%num by ring. rewrite E0. ring.
  - apply H. rewrite sumN_sub. destruct Hp as [_ Hp], Hq as [_ Hq]. rewrite Hp, Hq. ring.
Qed.
End Perron.
