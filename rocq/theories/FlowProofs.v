(** Lemmas on flow integrals. *)
From Verif Require Import Base LouvainModel SparseModel EventsModel EventsSpec TransModel TransSpec MatProofs FlowModel FlowSpec.

(** ** Covariances *)
Section Cov.
Context (n : nat) (p : nat -> num) (T : mat) (Hp : distribution n p) (HT : stochastic n T).
Lemma at_end_nonneg k : k < n -> (0 <= at_end n p T k)%num.
Proof. intros Hk. apply sumN_nonneg. intros i Hi. apply qmult_nonneg; [now apply Hp|now apply HT]. Qed.
Lemma at_end_zero i k : i < n -> k < n -> at_end n p T k = 0%num -> (p i * T i k)%num = 0%num.
Proof.
  intros Hi Hk H. apply (sumL_nonneg_zero (fun i => (p i * T i k)%num) (seq 0 n)); [|exact H|now apply seq_In_iff].
  intros a Ha. apply seq_In_iff in Ha. apply qmult_nonneg; [now apply Hp|now apply HT].
Qed.
Lemma at_end_sum : sumN n (at_end n p T) = 1%num.
Proof.
  unfold at_end. rewrite sumN_swap. transitivity (sumN n p); [|apply Hp]. apply sumN_ext. intros i Hi.
  rewrite sumN_scal_l. change (p i * sumN n (T i) = p i)%num. destruct HT as [_ Hs]. rewrite (Hs i Hi). ring.
Qed.
(** the summand of [flow_cov] *)
Definition cov_term (i j k : nat) : num :=
  (if qeqb (at_end n p T k) 0 then 0 else p i * T i k * (p j * T j k) / at_end n p T k)%num.
Lemma cov_row i k : i < n -> k < n -> sumN n (fun j => cov_term i j k) = (p i * T i k)%num.
Proof.
  intros Hi Hk. unfold cov_term. destruct (qeqb_spec (at_end n p T k) 0%num) as [E|E].
  - rewrite sumN_zero by reflexivity. symmetry. now apply at_end_zero.
  - transitivity (sumN n (fun j => (p i * T i k / at_end n p T k) * (p j * T j k)))%num.
    + apply sumN_ext. intros j _. field. exact E.
    + rewrite sumN_scal_l. change (p i * T i k / at_end n p T k * at_end n p T k = p i * T i k)%num. field. exact E.
Qed.
Lemma cov_zero_rows : zero_rows n (flow_cov n p T).
Proof.
  intros i Hi. unfold flow_cov. rewrite sumN_sub, sumN_swap, sumN_scal_l.
  transitivity (sumN n (fun k => p i * T i k) - p i * sumN n p)%num.
  - f_equal. apply sumN_ext. intros k Hk. now apply (cov_row i k).
  - rewrite sumN_scal_l. change (sumN n (fun k => T i k)) with (sumN n (T i)). destruct HT as [_ Hs], Hp as [_ H1]. rewrite (Hs i Hi), H1. ring.
Qed.
Lemma cov_symmetric : symmetric n (flow_cov n p T).
Proof.
  intros i j _ _. unfold flow_cov. f_equal; [|ring]. apply sumN_ext. intros k _. destruct (qeqb_spec (at_end n p T k) 0%num) as [E|E]; [reflexivity|]. field. exact E.
Qed.
(** the quadratic form is the variance of the average, over the walkers at the end, of x *)
Lemma cov_psd : positive_semidefinite n (flow_cov n p T).
Proof.
  intros x.
  set (a := fun k => sumN n (fun i => (x i * (p i * T i k))%num)). set (m := sumN n (fun i => (x i * p i)%num)).
  assert (Ha : sumN n a = m).
  { unfold a. rewrite sumN_swap. apply sumN_ext. intros i Hi. rewrite sumN_scal_l, sumN_scal_l. change (x i * (p i * sumN n (T i)) = x i * p i)%num. destruct HT as [_ Hs]. rewrite (Hs i Hi). ring. }
  assert (Ha0 : forall k, k < n -> at_end n p T k = 0%num -> a k = 0%num).
  { intros k Hk E. apply sumN_zero. intros i Hi. rewrite (at_end_zero i k Hi Hk E). ring. }
  assert (E : sumN n (fun i => sumN n (fun j => x i * flow_cov n p T i j * x j))%num =
    sumN n (fun k => if qeqb (at_end n p T k) 0 then 0 else (a k - m * at_end n p T k) * (a k - m * at_end n p T k) / at_end n p T k)%num).
  { transitivity (sumN n (fun k => if qeqb (at_end n p T k) 0 then 0 else a k * a k / at_end n p T k) - m * m)%num.
    - transitivity (sumN n (fun i => sumN n (fun j => sumN n (fun k => x i * cov_term i j k * x j) - (x i * p i) * (x j * p j))))%num.
      + apply sumN_ext. intros i _. apply sumN_ext. intros j _. unfold flow_cov. rewrite sumN_scal_r, sumN_scal_l. fold (cov_term i j). change (fun k => cov_term i j k) with (cov_term i j). ring.
      + transitivity (sumN n (fun i => sumN n (fun k => sumN n (fun j => x i * cov_term i j k * x j)) - (x i * p i) * m))%num.
        { apply sumN_ext. intros i _. rewrite sumN_sub, sumN_scal_l. f_equal. apply sumN_swap. }
        rewrite sumN_sub, sumN_scal_r. fold m. f_equal. rewrite sumN_swap. apply sumN_ext. intros k Hk.
        unfold cov_term. destruct (qeqb_spec (at_end n p T k) 0%num) as [Ek|Ek].
        * apply sumN_zero. intros i _. apply sumN_zero. intros j _. ring.
        * transitivity (sumN n (fun i => (x i * (p i * T i k)) * (a k / at_end n p T k)))%num.
          { apply sumN_ext. intros i _. transitivity (sumN n (fun j => (x i * (p i * T i k)) / at_end n p T k * (x j * (p j * T j k))))%num.
            - apply sumN_ext. intros j _. field. exact Ek.
            - rewrite sumN_scal_l. fold (a k). field. exact Ek. }
          rewrite sumN_scal_r. fold (a k). field. exact Ek.
    - transitivity (sumN n (fun k => (if qeqb (at_end n p T k) 0 then 0 else a k * a k / at_end n p T k) - (m * a k + m * a k - m * m * at_end n p T k)))%num.
      + rewrite sumN_sub, sumN_sub, sumN_add, !sumN_scal_l. change (fun k => a k) with a. change (fun k => at_end n p T k) with (at_end n p T). rewrite Ha, at_end_sum. ring.
      + apply sumN_ext. intros k Hk. destruct (qeqb_spec (at_end n p T k) 0%num) as [Ek|Ek].
        * rewrite (Ha0 k Hk Ek), Ek. ring.
        * field. exact Ek. }
  rewrite E. apply sumN_nonneg. intros k Hk. destruct (qeqb_spec (at_end n p T k) 0%num) as [Ek|Ek]; [apply Qcle_refl|].
  apply qdiv_nonneg; [apply qsq_nonneg|]. destruct (qle_lt_or_eq _ _ (at_end_nonneg k Hk)) as [H|H]; [exact H|congruence].
Qed.
Lemma cov_covariance : covariance_like n (flow_cov n p T).
Proof. split; [apply cov_symmetric|split; [apply cov_psd|apply cov_zero_rows]]. Qed.
End Cov.

(** nonnegative combinations *)
Lemma covariance_ext n A B : eqm n A B -> covariance_like n A -> covariance_like n B.
Proof.
  intros E (Hs & Hq & Hz). split; [|split].
  - intros i j Hi Hj. rewrite <- (E i j Hi Hj), <- (E j i Hj Hi). now apply Hs.
  - intros x. specialize (Hq x). replace (sumN n (fun i => sumN n (fun j => (x i * B i j * x j)%num))) with (sumN n (fun i => sumN n (fun j => (x i * A i j * x j)%num))); [exact Hq|].
    apply sumN_ext. intros i Hi. apply sumN_ext. intros j Hj. now rewrite (E i j Hi Hj).
  - intros i Hi. rewrite <- (Hz i Hi). apply sumN_ext. intros j Hj. symmetry. now apply E.
Qed.
Lemma covariance_add n A B : covariance_like n A -> covariance_like n B -> covariance_like n (mplus A B).
Proof.
  intros (Hs & Hq & Hz) (Hs' & Hq' & Hz'). split; [|split].
  - intros i j Hi Hj. unfold mplus. now rewrite (Hs i j Hi Hj), (Hs' i j Hi Hj).
  - intros x. assert (H := Hq x). assert (H' := Hq' x).
    replace (sumN n (fun i => sumN n (fun j => (x i * mplus A B i j * x j)%num))) with
      (sumN n (fun i => sumN n (fun j => (x i * A i j * x j)%num)) + sumN n (fun i => sumN n (fun j => (x i * B i j * x j)%num)))%num.
    + revert H H'. generalize (sumN n (fun i => sumN n (fun j => (x i * A i j * x j)%num))) (sumN n (fun i => sumN n (fun j => (x i * B i j * x j)%num))). qlra.
    + rewrite <- sumN_add. apply sumN_ext. intros i _. rewrite <- sumN_add. apply sumN_ext. intros j _. unfold mplus. ring.
  - intros i Hi. unfold mplus. rewrite sumN_add. change (sumN n (A i) + sumN n (B i) = 0)%num. rewrite (Hz i Hi), (Hz' i Hi). ring.
Qed.
Lemma covariance_scal n c A : (0 <= c)%num -> covariance_like n A -> covariance_like n (mscal c A).
Proof.
  intros Hc (Hs & Hq & Hz). split; [|split].
  - intros i j Hi Hj. unfold mscal. now rewrite (Hs i j Hi Hj).
  - intros x. replace (sumN n (fun i => sumN n (fun j => (x i * mscal c A i j * x j)%num))) with (c * sumN n (fun i => sumN n (fun j => (x i * A i j * x j)%num)))%num.
    + apply qmult_nonneg; [exact Hc|apply Hq].
    + rewrite <- sumN_scal_l. apply sumN_ext. intros i _. rewrite <- sumN_scal_l. apply sumN_ext. intros j _. unfold mscal. ring.
  - intros i Hi. unfold mscal. rewrite sumN_scal_l. change (c * sumN n (A i) = 0)%num. rewrite (Hz i Hi). ring.
Qed.
Lemma covariance_zero n : covariance_like n (fun _ _ => 0%num).
Proof.
  split; [intros i j _ _; reflexivity|split].
  - intros x. rewrite sumN_zero; [apply Qcle_refl|]. intros i _. apply sumN_zero. intros j _. ring.
  - intros i _. now apply sumN_zero.
Qed.
Lemma average_covariance n p T ts m : distribution n p -> (forall k, k < m -> stochastic n (T k)) ->
  covariance_like n (time_average n p T ts m).
Proof.
  intros Hp HT.
  apply (covariance_ext n (mscal (/ qabs (nth m ts 0 - nth 0 ts 0)) (fun i j => sumN m (fun k => gap ts k * flow_cov n p (T k) i j)))%num).
  { intros i j _ _. unfold mscal, time_average. unfold Qcdiv. ring. }
  apply covariance_scal.
  { assert (H := qabs_nonneg (nth m ts 0 - nth 0 ts 0)%num). destruct (qle_lt_or_eq _ _ H) as [H'|H']; [apply Qclt_le_weak; now apply qinv_pos|rewrite <- H'; vm_compute; congruence]. }
  induction m as [|m IH].
  - exact (covariance_ext n _ _ (eqm_refl n _) (covariance_zero n)).
  - apply (covariance_ext n (mplus (fun i j => sumN m (fun k => gap ts k * flow_cov n p (T k) i j)) (mscal (gap ts m) (flow_cov n p (T m))))%num).
    { intros i j _ _. rewrite sumN_S. reflexivity. }
    apply covariance_add; [apply IH; auto|]. apply covariance_scal; [apply qabs_nonneg|]. apply cov_covariance; auto.
Qed.
Lemma flow_cov_ext n p T T' : eqm n T T' -> eqm n (flow_cov n p T) (flow_cov n p T').
Proof.
  intros E i j Hi Hj. unfold flow_cov. f_equal. apply sumN_ext. intros k Hk.
  replace (at_end n p T' k) with (at_end n p T k) by (apply sumN_ext; intros a Ha; now rewrite (E a k Ha Hk)).
  now rewrite (E i k Hi Hk), (E j k Hj Hk).
Qed.
Lemma average_ext n p T T' ts m : (forall k, k < m -> eqm n (T k) (T' k)) -> eqm n (time_average n p T ts m) (time_average n p T' ts m).
Proof. intros E i j Hi Hj. unfold time_average. f_equal. apply sumN_ext. intros k Hk. f_equal. now apply (flow_cov_ext n p _ _ (E k Hk)). Qed.

(** ** Times *)
Definition decreasing (ts : list num) : Prop := forall a b, a < b -> b < length ts -> (nth b ts 0 < nth a ts 0)%num.
Definition monotone (ts : list num) : Prop := increasing ts \/ decreasing ts.
Lemma rev_decreasing ts : increasing ts -> decreasing (rev ts).
Proof.
  intros H a b Hab Hb. rewrite rev_length in Hb. rewrite !rev_nth by lia. apply H; lia.
Qed.
Lemma list_reverse_monotone r ts : increasing ts -> monotone (list_reverse r ts).
Proof. intros H. destruct r; [right; now apply rev_decreasing|left; exact H]. Qed.
Lemma diffs_length l : length (diffs l) = length l - 1.
Proof. induction l as [|a [|b l] IH]; [reflexivity|reflexivity|]. cbn [diffs length] in *. lia. Qed.
Lemma diffs_nth l : forall k, S k < length l -> nth k (diffs l) 0%num = (nth (S k) l 0 - nth k l 0)%num.
Proof.
  induction l as [|a [|b l] IH]; intros k Hk; cbn [length] in Hk; [lia|lia|].
  destruct k as [|k]; [reflexivity|]. change (nth k (diffs (b :: l)) 0%num = (nth (S k) (b :: l) 0 - nth k (b :: l) 0)%num). apply IH. cbn [length]. lia.
Qed.
Lemma dt_length ts : length (dt_list ts) = length ts - 1.
Proof. unfold dt_list. destruct (qltb _ _); [rewrite map_length|]; apply diffs_length. Qed.
Lemma dt_nth ts k : monotone ts -> S k < length ts -> nth k (dt_list ts) 0%num = gap ts k /\ (0 < gap ts k)%num.
Proof.
  intros H Hk. unfold dt_list, gap. destruct H as [H|H].
  - assert (H1 : (nth 0 ts 0 < nth (length ts - 1) ts 0)%num) by (apply H; lia). assert (H2 : (nth k ts 0 < nth (S k) ts 0)%num) by (apply H; lia).
    destruct (qltb_spec (nth (length ts - 1) ts 0%num) (nth 0 ts 0%num)) as [H3|_]; [exfalso; revert H1 H3; generalize (nth 0 ts 0%num) (nth (length ts - 1) ts 0%num); qlra|].
    rewrite diffs_nth by exact Hk. unfold qabs. destruct (qltb_spec (nth (S k) ts 0 - nth k ts 0)%num 0%num) as [H3|_]; revert H2; try revert H3; generalize (nth (S k) ts 0%num) (nth k ts 0%num); intros; [exfalso|split]; try reflexivity; qlra.
  - assert (H1 : (nth (length ts - 1) ts 0 < nth 0 ts 0)%num) by (apply H; lia). assert (H2 : (nth (S k) ts 0 < nth k ts 0)%num) by (apply H; lia).
    destruct (qltb_spec (nth (length ts - 1) ts 0%num) (nth 0 ts 0%num)) as [_|H3]; [|contradiction].
    change 0%num with (Qcopp 0%num) at 1. rewrite map_nth, diffs_nth by exact Hk. unfold qabs. destruct (qltb_spec (nth (S k) ts 0 - nth k ts 0)%num 0%num) as [_|H3].
    + split; [reflexivity|]. revert H2. generalize (nth (S k) ts 0%num) (nth k ts 0%num). qlra.
    + exfalso. apply H3. revert H2. generalize (nth (S k) ts 0%num) (nth k ts 0%num). qlra.
Qed.
Lemma gap_sum ts m : monotone ts -> m < length ts -> sumN m (gap ts) = qabs (nth m ts 0 - nth 0 ts 0)%num.
Proof.
  intros H. induction m as [|m IH]; intros Hm.
  - replace (nth 0 ts 0 - nth 0 ts 0)%num with 0%num by ring. reflexivity.
  - rewrite sumN_S, IH by lia. unfold gap.
    destruct H as [H|H].
    + assert (H1 : (nth m ts 0 < nth (S m) ts 0)%num) by (apply H; lia). assert (H0 : (nth 0 ts 0 <= nth m ts 0)%num) by (destruct m; [apply Qcle_refl|apply Qclt_le_weak, H; lia]).
      revert H0 H1. generalize (nth 0 ts 0%num) (nth m ts 0%num) (nth (S m) ts 0%num). intros a b c H0 H1. unfold qabs.
      repeat match goal with |- context [qltb ?x ?y] => destruct (qltb_spec x y) end; qlra.
    + assert (H1 : (nth (S m) ts 0 < nth m ts 0)%num) by (apply H; lia). assert (H0 : (nth m ts 0 <= nth 0 ts 0)%num) by (destruct m; [apply Qcle_refl|apply Qclt_le_weak, H; lia]).
      revert H0 H1. generalize (nth 0 ts 0%num) (nth m ts 0%num) (nth (S m) ts 0%num). intros a b c H0 H1. unfold qabs.
      repeat match goal with |- context [qltb ?x ?y] => destruct (qltb_spec x y) end; qlra.
Qed.
Lemma gap_sum_pos ts m : monotone ts -> 0 < m -> m < length ts -> (0 < sumN m (gap ts))%num.
Proof.
  intros H H0 Hm. destruct m as [|m]; [lia|]. rewrite sumN_S. assert (H1 : (0 <= sumN m (gap ts))%num) by (apply sumN_nonneg; intros k _; apply qabs_nonneg).
  destruct (dt_nth ts m H Hm) as [_ H2]. revert H1 H2. generalize (sumN m (gap ts)) (gap ts m). qlra.
Qed.

(** ** The loop *)
Section Loop.
Context (n : nat) (kd : kind) (rtol : option num) (p : nat -> num) (kg : list nat).
(** sum and total time after the steps [l] *)
Definition sum_after (A : mat) (l : list (mat * num)) : mat := fold_left (fun A x => add_step n kd rtol p A (fst x) (snd x)) l A.
Definition total_after (x : num) (l : list (mat * num)) : num := fold_left (fun x y => (x + snd y)%num) l x.
Definition stored (k len : nat) : list nat := filter (fun m => memb (k + m) kg) (seq 1 len).
Lemma stored_S k len : stored k (S len) = (if memb (S k) kg then [1] else []) ++ map S (stored (S k) len).
Proof.
  unfold stored. cbn [seq filter]. rewrite Nat.add_1_r.
  assert (E : filter (fun m => memb (k + m) kg) (seq 2 len) = map S (filter (fun m => memb (S k + m) kg) (seq 1 len))).
  { rewrite <- seq_shift. generalize (seq 1 len). intros l. induction l as [|x l IH]; [reflexivity|]. cbn [map filter]. rewrite Nat.add_succ_r. cbn [Nat.add]. destruct (memb _ _); cbn [map]; now rewrite IH. }
  rewrite E. destruct (memb (S k) kg); reflexivity.
Qed.
Lemma integrals_out l : forall k A x, (forall m, In m (stored k (length l)) -> total_after x (firstn m l) <> 0%num) ->
  integrals n kd rtol p kg k A x l = Some (map (fun m => finish kd p (sum_after A (firstn m l)) (total_after x (firstn m l))) (stored k (length l))).
Proof.
  induction l as [|[T dt] l IH]; intros k A x H; [reflexivity|]. cbn [integrals length]. rewrite stored_S, map_app, map_map.
  assert (HN : forall m, In m (stored (S k) (length l)) -> total_after (x + dt)%num (firstn m l) <> 0%num).
  { intros m Hm. apply (H (S m)). cbn [length]. rewrite stored_S. apply in_or_app. right. now apply in_map. }
  rewrite (IH (S k) _ _ HN). cbn [length] in H. destruct (memb (S k) kg) eqn:E; [|reflexivity].
  destruct (qeqb_spec (x + dt)%num 0%num) as [E0|_]; [|reflexivity].
  exfalso. apply (H 1); [|exact E0]. rewrite stored_S, E. now left.
Qed.
Lemma integrals_some l : forall k A x out, integrals n kd rtol p kg k A x l = Some out ->
  out = map (fun m => finish kd p (sum_after A (firstn m l)) (total_after x (firstn m l))) (stored k (length l)).
Proof.
  induction l as [|[T dt] l IH]; intros k A x out H; cbn [integrals length] in *; [now injection H as <-|].
  rewrite stored_S, map_app, map_map. destruct (memb (S k) kg).
  - destruct (qeqb _ _); [discriminate|]. destruct (integrals _ _ _ _ _ _ _ _ l) as [o|] eqn:E; [|discriminate]. injection H as <-.
    rewrite (IH _ _ _ _ E). reflexivity.
  - exact (IH _ _ _ _ H).
Qed.
End Loop.
Lemma firstn_S_nth {A} (l : list A) : forall m d, m < length l -> firstn (S m) l = firstn m l ++ [nth m l d].
Proof. induction l as [|a l IH]; intros m d Hm; cbn [length] in Hm; [lia|]. destruct m as [|m]; [reflexivity|]. cbn [firstn nth app]. f_equal. apply IH. lia. Qed.
Lemma total_after_sum l : forall x, total_after x l = (x + sumL snd l)%num.
Proof. induction l as [|y l IH]; intros x; [cbn; ring|]. rewrite sumL_cons. change (total_after (x + snd y) l = x + (snd y + sumL snd l))%num. rewrite IH. ring. Qed.
Lemma sumL_firstn_nth {A} (f : A -> num) (d : A) l : forall m, m <= length l -> sumL f (firstn m l) = sumN m (fun k => f (nth k l d)).
Proof.
  intros m Hm. induction m as [|m IH]; [reflexivity|].
  rewrite (firstn_S_nth l m d) by lia. rewrite sumL_app, sumN_S, IH by lia. f_equal. cbn. ring.
Qed.

(** ** Sums without rounding *)
Section Steps.
Context (n : nat) (p : nat -> num).
Definition gram_sum (l : list (mat * num)) : mat := fun i j => sumL (fun x => gram n p (fst x) (snd x) i j) l.
Definition part (kd : kind) (A : mat) : mat := match kd with Sparse true => upper A | _ => A end.
Lemma zeroed_abs_exact rtol A : rtol = None \/ rtol = Some 0%num -> eqm n (zeroed_abs n rtol A) A.
Proof.
  intros [-> | ->] i j Hi Hj; [reflexivity|]. unfold zeroed_abs. destruct (qleb_spec (qabs (A i j)) (0 * absmax n A)%num) as [H|_]; [|reflexivity].
  replace (0 * absmax n A)%num with 0%num in H by ring. revert H. unfold qabs. destruct (qltb_spec (A i j) 0%num); generalize dependent (A i j); intros; qlra.
Qed.
Lemma add_step_exact kd rtol A T dt : exact kd rtol ->
  eqm n (add_step n kd rtol p A T dt) (mplus A (part kd (gram n p T dt))).
Proof.
  intros H. destruct kd as [|mkl]; [apply eqm_refl|]. destruct H as [H|H]; [discriminate|].
  intros i j Hi Hj. unfold add_step, mplus. rewrite !(zeroed_abs_exact rtol _ H i j Hi Hj). destruct mkl; reflexivity.
Qed.
Lemma zeroed_abs_ext rtol A B : eqm n A B -> eqm n (zeroed_abs n rtol A) (zeroed_abs n rtol B).
Proof.
  intros E i j Hi Hj. unfold zeroed_abs. destruct rtol as [r|]; [|now apply E]. rewrite (E i j Hi Hj).
  replace (absmax n B) with (absmax n A); [reflexivity|]. unfold absmax.
  assert (HF : forall l m, incl l (pairs_of n) -> fold_left (fun m ij => qmax m (qabs (A (fst ij) (snd ij)))) l m = fold_left (fun m ij => qmax m (qabs (B (fst ij) (snd ij)))) l m).
  { induction l as [|[a b] l IH]; intros m Hl; [reflexivity|]. cbn [fold_left fst snd]. assert (Hab : In (a, b) (pairs_of n)) by (apply Hl; now left).
    apply in_prod_iff in Hab. destruct Hab as [Ha Hb]. apply seq_In_iff in Ha, Hb. rewrite (E a b Ha Hb). apply IH. intros x Hx. apply Hl. now right. }
  apply HF. apply incl_refl.
Qed.
Lemma add_step_ext kd rtol A B T dt : eqm n A B -> eqm n (add_step n kd rtol p A T dt) (add_step n kd rtol p B T dt).
Proof.
  intros E i j Hi Hj. unfold add_step, mplus. destruct kd as [|mkl]; [now rewrite (E i j Hi Hj)|]. now rewrite (zeroed_abs_ext rtol A B E i j Hi Hj).
Qed.
Lemma sum_after_ext kd rtol l : forall A B, eqm n A B -> eqm n (sum_after n kd rtol p A l) (sum_after n kd rtol p B l).
Proof. induction l as [|x l IH]; intros A B E; [exact E|]. apply IH. now apply add_step_ext. Qed.
Lemma sum_after_exact kd rtol l : exact kd rtol -> forall A, eqm n (sum_after n kd rtol p A l) (mplus A (part kd (gram_sum l))).
Proof.
  intros H. induction l as [|x l IH]; intros A i j Hi Hj.
  - unfold mplus, part, upper, gram_sum. cbn. destruct kd as [|[|]]; try destruct (i <=? j); ring.
  - change (sum_after n kd rtol p A (x :: l)) with (sum_after n kd rtol p (add_step n kd rtol p A (fst x) (snd x)) l).
    rewrite (IH _ i j Hi Hj). unfold mplus at 1. rewrite (add_step_exact kd rtol A (fst x) (snd x) H i j Hi Hj).
    assert (E : gram_sum (x :: l) i j = (gram n p (fst x) (snd x) i j + gram_sum l i j)%num) by (unfold gram_sum; now rewrite sumL_cons).
    unfold mplus, part, upper. destruct kd as [|[|]]; try destruct (i <=? j); rewrite ?E; ring.
Qed.
Lemma gram_sym T dt i j : gram n p T dt i j = gram n p T dt j i.
Proof. unfold gram. f_equal. apply sumN_ext. intros k _. ring. Qed.
Lemma finish_part kd A x : (forall i j, A i j = A j i) -> eqm n (finish kd p (part kd A) x) (weighted p A x).
Proof.
  intros Hs i j Hi Hj. unfold finish, part. destruct kd as [|[|]]; try reflexivity. unfold weighted, upper.
  destruct (Nat.eqb_spec i j) as [<-|N].
  - rewrite Nat.leb_refl. ring.
  - destruct (Nat.leb_spec i j), (Nat.leb_spec j i); try lia; [|rewrite (Hs j i)]; ring.
Qed.
Lemma finish_ext kd A B x : eqm n A B -> eqm n (finish kd p A x) (finish kd p B x).
Proof.
  intros E i j Hi Hj. unfold finish, weighted. destruct kd as [|[|]]; rewrite ?(E i j Hi Hj), ?(E j i Hj Hi), ?(E i i Hi Hi); reflexivity.
Qed.
Lemma gram_cov T dt : distribution n p -> stochastic n T -> forall i j, i < n -> j < n ->
  (p i * gram n p T dt i j * p j)%num = (dt * (flow_cov n p T i j + p i * p j))%num.
Proof.
  intros Hp HT i j Hi Hj. unfold gram, flow_cov.
  transitivity (dt * (p i * p j * sumN n (fun k => T i k * (1 / safe (arrival n p T k)) * T j k)))%num; [ring|]. f_equal.
  rewrite <- sumN_scal_l.
  transitivity (sumN n (fun k => if qeqb (at_end n p T k) 0 then 0 else p i * T i k * (p j * T j k) / at_end n p T k))%num; [|ring].
  apply sumN_ext. intros k Hk. unfold safe. change (arrival n p T k) with (at_end n p T k).
  destruct (qeqb_spec (at_end n p T k) 0%num) as [E|E].
  - assert (H := at_end_zero n p T Hp HT i k Hi Hk E). transitivity ((p i * T i k) * (p j * T j k))%num; [field; try discriminate|rewrite H; ring].
  - field. exact E.
Qed.
End Steps.

(** ** One stored integral *)
Lemma nth_combine_fst {A B} (l : list A) (l' : list B) k d d' : k < length l -> k < length l' -> nth k (combine l l') (d, d') = (nth k l d, nth k l' d').
Proof.
  revert l' k. induction l as [|a l IH]; intros [|b l'] k H H'; cbn [length] in *; try lia. destruct k as [|k]; [reflexivity|]. cbn [combine nth]. apply IH; lia.
Qed.
Definition steps_of (Ts : list mat) (ts : list num) : list (mat * num) := combine Ts (dt_list ts).
Lemma steps_length Ts ts : length (steps_of Ts ts) = min (length Ts) (length ts - 1).
Proof. unfold steps_of. now rewrite combine_length, dt_length. Qed.
Lemma steps_total Ts ts m : monotone ts -> m <= length (steps_of Ts ts) -> total_after 0%num (firstn m (steps_of Ts ts)) = sumN m (gap ts).
Proof.
  intros Hts Hm. rewrite total_after_sum, (sumL_firstn_nth snd (ident, 0%num)) by exact Hm. rewrite steps_length in Hm.
  transitivity (sumN m (fun k => snd (nth k (steps_of Ts ts) (ident, 0%num)))); [ring|]. apply sumN_ext. intros k Hk.
  unfold steps_of. rewrite nth_combine_fst by (rewrite ?dt_length; lia). cbn [snd]. now apply dt_nth; [|lia].
Qed.
Definition minus_outer (p : nat -> num) (A : mat) : mat := fun i j => (A i j - p i * p j)%num.
Lemma gram_average n p Ts ts m : distribution n p -> (forall k, k < m -> stochastic n (nth k Ts ident)) -> monotone ts ->
  0 < m -> m <= length (steps_of Ts ts) ->
  eqm n (minus_outer p (weighted p (gram_sum n p (firstn m (steps_of Ts ts))) (sumN m (gap ts)))) (time_average n p (fun k => nth k Ts ident) ts m).
Proof.
  intros Hp HT Hts H0 Hm i j Hi Hj. assert (Hm' := Hm). rewrite steps_length in Hm'. unfold minus_outer, weighted, time_average.
  assert (Hpos := gap_sum_pos ts m Hts H0 ltac:(lia)). rewrite <- (gap_sum ts m Hts) by lia. assert (Hne := qneq_pos _ Hpos).
  assert (E : (p i * gram_sum n p (firstn m (steps_of Ts ts)) i j * p j)%num = sumN m (fun k => (gap ts k * flow_cov n p (nth k Ts ident) i j + gap ts k * (p i * p j)))%num).
  { unfold gram_sum. rewrite (sumL_firstn_nth _ (ident, 0%num)) by exact Hm. rewrite <- sumN_scal_l, <- sumN_scal_r. apply sumN_ext. intros k Hk.
    unfold steps_of. rewrite nth_combine_fst by (rewrite ?dt_length; lia). cbn [fst snd].
    rewrite (gram_cov n p (nth k Ts ident) _ Hp (HT k Hk) i j Hi Hj). destruct (dt_nth ts k Hts ltac:(lia)) as [-> _]. ring. }
  rewrite E, sumN_add, sumN_scal_r. change (sumN m (fun k => gap ts k)) with (sumN m (gap ts)). field. exact Hne.
Qed.
Lemma stored_average n kd rtol p Ts ts m : exact kd rtol -> distribution n p -> (forall k, k < m -> stochastic n (nth k Ts ident)) -> monotone ts ->
  0 < m -> m <= length (steps_of Ts ts) ->
  eqm n (minus_outer p (finish kd p (sum_after n kd rtol p (fun _ _ => 0%num) (firstn m (steps_of Ts ts))) (total_after 0%num (firstn m (steps_of Ts ts)))))
        (time_average n p (fun k => nth k Ts ident) ts m).
Proof.
  intros He Hp HT Hts H0 Hm. eapply eqm_trans; [|now apply gram_average].
  rewrite steps_total by assumption. intros i j Hi Hj. unfold minus_outer. f_equal.
  rewrite (finish_ext n p kd _ (part kd (gram_sum n p (firstn m (steps_of Ts ts)))) _) by
    (try assumption; intros a b Ha Hb; rewrite (sum_after_exact n p kd rtol _ He _ a b Ha Hb); unfold mplus; ring).
  apply (finish_part n p kd); try assumption. intros a b. unfold gram_sum. apply sumL_ext. intros x _. apply gram_sym.
Qed.
