(** Lemmas on saved integrals. *)
From Verif Require Import Base LouvainModel SparseModel EventsModel EventsSpec TransModel TransSpec MatProofs FlowModel FlowSpec FlowProofs CovModel CovSpec.
Local Open Scope bool_scope.

(** ** Lists *)
Lemma combine_app {A B} (l l2 : list A) : forall (m m2 : list B), length l = length m -> combine (l ++ l2) (m ++ m2) = combine l m ++ combine l2 m2.
Proof. induction l as [|a l IH]; intros [|b m] m2 H; cbn [length] in H; try lia; [reflexivity|]. cbn. f_equal. apply IH. lia. Qed.
Lemma combine_rev {A B} (l : list A) : forall (m : list B), length l = length m -> combine (rev l) (rev m) = rev (combine l m).
Proof.
  induction l as [|a l IH]; intros [|b m] H; cbn [length] in H; try lia; [reflexivity|]. cbn. rewrite combine_app by (rewrite !rev_length; lia). rewrite IH by lia. reflexivity.
Qed.
Lemma diffs_snoc l a b : diffs ((l ++ [a]) ++ [b]) = diffs (l ++ [a]) ++ [(b - a)%num].
Proof.
  induction l as [|c l IH]; [reflexivity|]. destruct l as [|e l]; [reflexivity|]. cbn [app] in *.
  change (diffs (c :: e :: (l ++ [a]) ++ [b])) with ((e - c)%num :: diffs (e :: (l ++ [a]) ++ [b])). rewrite IH. reflexivity.
Qed.
Lemma diffs_rev l : map Qcopp (diffs (rev l)) = rev (diffs l).
Proof.
  induction l as [|a [|b l] IH]; [reflexivity|reflexivity|].
  change (rev (diffs (a :: b :: l))) with (rev (diffs (b :: l)) ++ [(b - a)%num]). rewrite <- IH. cbn [rev]. rewrite diffs_snoc, map_app. cbn [map rev]. f_equal. f_equal. ring.
Qed.
Lemma diffs_sum l : l <> [] -> sumL (fun x => x) (diffs l) = (nth (length l - 1) l 0 - nth 0 l 0)%num.
Proof.
  induction l as [|a [|b l] IH]; intros H; [congruence|cbn; ring|].
  change (diffs (a :: b :: l)) with ((b - a)%num :: diffs (b :: l)). rewrite sumL_cons, IH by discriminate.
  replace (length (a :: b :: l) - 1) with (S (length (b :: l) - 1)) by (cbn [length]; lia). cbn [nth]. ring.
Qed.
Lemma sumL_rev {A} (f : A -> num) l : sumL f (rev l) = sumL f l.
Proof. induction l as [|a l IH]; [reflexivity|]. cbn [rev]. rewrite sumL_app, !sumL_cons, IH, sumL_nil. ring. Qed.
Lemma snd_combine {A} (l : list A) : forall m : list num, length l = length m -> sumL snd (combine l m) = sumL (fun x => x) m.
Proof. induction l as [|a l IH]; intros [|b m] H; cbn [length] in H; try lia; [reflexivity|]. cbn [combine]. rewrite !sumL_cons. cbn [snd]. f_equal. apply IH. lia. Qed.

(** ** Slices *)
Section Slices.
Context (n : nat).
Lemma slice_steps_spec back s : slice_ok n s -> slice_steps back s = steps back (Some s).
Proof.
  intros (HL & _). unfold slice_steps, steps, list_reverse. destruct back; [|reflexivity]. rewrite diffs_rev.
  destruct HL as [HL|HL].
  - apply combine_rev. rewrite diffs_length. lia.
  - destruct (s_times s) as [|a [|b l]]; cbn [length] in HL; try lia. cbn. now destruct (rev (s_inter s)), (s_inter s).
Qed.
Lemma steps_duration back s : slice_ok n s -> sumL snd (steps back (Some s)) = qabs (s_stop s - s_start s)%num.
Proof.
  intros (HL & HI & H0 & H1 & _). unfold steps.
  transitivity (sumL snd (combine (s_inter s) (diffs (s_times s)))); [destruct back; [apply sumL_rev|reflexivity]|].
  assert (HN : s_times s <> []) by (intros E; rewrite E in HL; cbn [length] in HL; lia).
  destruct HL as [HL|HL].
  - rewrite snd_combine by (rewrite diffs_length; lia). rewrite diffs_sum by exact HN. rewrite <- H0, <- H1.
    unfold qabs. destruct (qltb_spec (s_stop s - s_start s)%num 0%num) as [H|_]; [|reflexivity]. exfalso.
    assert (HL' : (s_start s <= s_stop s)%num).
    { rewrite H0, H1. destruct (length (s_times s) - 1) as [|k] eqn:E; [apply Qcle_refl|]. apply Qclt_le_weak. apply HI; lia. }
    revert H HL'. generalize (s_stop s) (s_start s). qlra.
  - rewrite H0, H1. destruct (s_times s) as [|a [|b l]]; cbn [length] in HL; try lia. cbn. replace (a - a)%num with 0%num by ring. now destruct (s_inter s).
Qed.
Lemma steps_stochastic back s A : slice_ok n s -> In A (map fst (steps back (Some s))) -> stochastic n A.
Proof.
  intros (_ & _ & _ & _ & HS) H. apply in_map_iff in H. destruct H as ((B & dt) & <- & H). apply HS. unfold steps in H.
  assert (H' : In (B, dt) (combine (s_inter s) (diffs (s_times s)))) by (destruct back; [now apply in_rev|exact H]). now apply in_combine_l in H'.
Qed.
Lemma steps_nonneg back s x : slice_ok n s -> In x (steps back (Some s)) -> (0 <= snd x)%num.
Proof.
  intros (_ & HI & _) H. destruct x as (B & dt). unfold steps in H.
  assert (H' : In (B, dt) (combine (s_inter s) (diffs (s_times s)))) by (destruct back; [now apply in_rev|exact H]). apply in_combine_r in H'.
  apply In_nth with (d := 0%num) in H'. destruct H' as (k & Hk & <-). rewrite diffs_length in Hk. rewrite diffs_nth by lia. cbn [snd].
  assert (HK := HI k (S k) ltac:(lia) ltac:(lia)). revert HK. generalize (nth (S k) (s_times s) 0%num) (nth k (s_times s) 0%num). qlra.
Qed.
End Slices.

(** ** Walks *)
Definition ahead (back : bool) (a b : nat) : Prop := if back then b <= a else a <= b.
(** position before and after interval k *)
Definition pos_before (back : bool) (k : nat) : nat := if back then k + 1 else k.
Definition pos_after (back : bool) (k : nat) : nat := if back then k else k + 1.
Lemma seq_snoc a k : seq a (S k) = seq a k ++ [a + k].
Proof. rewrite seq_S. reflexivity. Qed.
Lemma walk_same data a : walk data a a = [].
Proof. unfold walk, crossed. now rewrite Nat.leb_refl, Nat.sub_diag. Qed.
Lemma walk_step data back a k : ahead back a (pos_before back k) ->
  walk data a (pos_after back k) = walk data a (pos_before back k) ++ steps back (data k).
Proof.
  unfold ahead, pos_before, pos_after, walk, crossed. destruct back; intros H.
  - destruct (Nat.leb_spec a k) as [H1|H1]; [lia|]. destruct (Nat.ltb_spec k a) as [_|]; [|lia].
    replace (a - k) with (S (a - (k + 1))) by lia. cbn [seq rev]. rewrite flat_map_app. cbn [flat_map]. rewrite app_nil_r. f_equal.
    destruct (Nat.leb_spec a (k + 1)) as [H2|H2].
    + replace (a - (k + 1)) with 0 by lia. replace (k + 1 - a) with 0 by lia. reflexivity.
    + destruct (Nat.ltb_spec (k + 1) a) as [_|]; [|lia]. now rewrite Nat.add_1_r.
  - destruct (Nat.leb_spec a (k + 1)) as [_|]; [|lia]. destruct (Nat.leb_spec a k) as [_|]; [|lia].
    destruct (Nat.ltb_spec (k + 1) a) as [|_]; [lia|]. destruct (Nat.ltb_spec k a) as [|_]; [lia|].
    replace (k + 1 - a) with (S (k - a)) by lia. rewrite seq_snoc, flat_map_app. cbn [flat_map]. rewrite app_nil_r. now replace (a + (k - a)) with k by lia.
Qed.
Lemma krange_cons back a b : ahead back a b -> a <> b ->
  exists k, pos_before back k = a /\ krange back a b = k :: krange back (pos_after back k) b /\ ahead back (pos_after back k) b /\ k < max a b.
Proof.
  unfold ahead, krange, pos_before, pos_after. destruct back; intros H N.
  - exists (a - 1). split; [lia|]. split; [|lia]. replace (a - b) with (S (a - 1 - b)) by lia. rewrite seq_snoc, rev_app_distr. cbn. f_equal. lia.
  - exists a. split; [lia|]. split; [|lia]. replace (b - a) with (S (b - (a + 1))) by lia. cbn [seq]. now rewrite Nat.add_1_r.
Qed.
Lemma krange_same back a : krange back a a = [].
Proof. unfold krange. rewrite Nat.sub_diag. now destruct back. Qed.
Lemma krange_ind (back : bool) (b : nat) (P : nat -> list nat -> Prop) :
  P b [] -> (forall k, ahead back (pos_after back k) b -> P (pos_after back k) (krange back (pos_after back k) b) -> P (pos_before back k) (k :: krange back (pos_after back k) b)) ->
  forall a, ahead back a b -> P a (krange back a b).
Proof.
  intros H0 HS. assert (HG : forall N a, a - b + (b - a) = N -> ahead back a b -> P a (krange back a b)).
  { induction N as [N IH] using lt_wf_ind. intros a HN HA. destruct (Nat.eq_dec a b) as [->|Hab]; [now rewrite krange_same|].
    destruct (krange_cons back a b HA Hab) as (k & E & HK & HA' & _). rewrite HK, <- E. apply HS; [exact HA'|]. refine (IH _ _ _ eq_refl HA').
    unfold ahead, pos_before, pos_after in *. destruct back; lia. }
  intros a HA. exact (HG _ a eq_refl HA).
Qed.
Lemma ahead_trans back a b c : ahead back a b -> ahead back b c -> ahead back a c.
Proof. unfold ahead. destruct back; lia. Qed.
Lemma ahead_refl back a : ahead back a a.
Proof. unfold ahead. destruct back; lia. Qed.
Lemma ahead_before back k : ahead back (pos_before back k) (pos_after back k).
Proof. unfold ahead, pos_before, pos_after. destruct back; lia. Qed.
Lemma ahead_before' back a b k : ahead back a (pos_before back k) -> ahead back (pos_after back k) b -> k < max a b.
Proof. unfold ahead, pos_before, pos_after. destruct back; lia. Qed.
(** stops one after the other *)
Fixpoint in_line (back : bool) (a : nat) (sts : list nat) : Prop :=
  match sts with [] => True | b :: r => ahead back a b /\ in_line back b r end.

(** ** Sums *)
Section Sums.
Context (n : nat) (tol : num) (Hn : 0 < n) (Ht0 : (0 <= tol)%num) (Ht1 : (tol * qn n < 1)%num).
Lemma zeroed_0 A : stochastic n A -> eqm n (zeroed n 0%num A) A.
Proof.
  intros [HA _] i j Hi Hj. unfold zeroed. destruct (qleb_spec (A i j) (0 * absmax n A)%num) as [H|_]; [|reflexivity].
  specialize (HA i j Hi Hj). replace (0 * absmax n A)%num with 0%num in H by ring. now apply Qcle_antisym.
Qed.
Lemma prep_stochastic A : stochastic n A -> stochastic n (prep n tol A).
Proof. intros H. unfold prep. apply (zeroing_stochastic n (zeroed n) tol A); [apply zeroed_zeroing|assumption|assumption|exact H]. Qed.
Lemma prep_exact A : tol = 0%num -> stochastic n A -> eqm n (prep n tol A) A.
Proof.
  intros -> H. unfold prep. eapply eqm_trans; [apply rownorm_ext, zeroed_0, H|]. now apply rownorm_stochastic.
Qed.
(** the transition after one more step *)
Lemma next_stochastic T A : stochastic n T -> stochastic n A -> stochastic n (prep n tol (mmul n T (prep n tol A))).
Proof. intros HT HA. apply prep_stochastic, stochastic_mmul; [exact HT|now apply prep_stochastic]. Qed.
Lemma next_exact T A l : tol = 0%num -> stochastic n T -> stochastic n A -> eqm n T (chain n l) ->
  eqm n (prep n tol (mmul n T (prep n tol A))) (chain n (l ++ [A])).
Proof.
  intros E HT HA HC. eapply eqm_trans; [apply prep_exact; [exact E|]; apply stochastic_mmul; [exact HT|now apply prep_stochastic]|].
  eapply eqm_trans; [apply mmul_ext; [exact HC|now apply prep_exact]|]. apply eqm_sym, chain_snoc.
Qed.
Lemma uniform_ok : distribution n (uniform n).
Proof.
  assert (HN : (0 < qn n)%num) by (rewrite <- qn_0; now apply qn_lt).
  split; [intros i _; unfold uniform; apply qdiv_nonneg; [discriminate|exact HN]|].
  unfold uniform, sumN. rewrite sumL_const, seq_length. field. now apply qneq_pos.
Qed.

(** the sum over the walk [w], and the transition *)
Definition weighted_sum (Ts : list mat) (w : list (mat * num)) : mat := gram_sum n (uniform n) (combine Ts (map snd w)).
Definition good_sum (w : list (mat * num)) (A T : mat) : Prop :=
  stochastic n T /\ (tol = 0%num -> eqm n T (chain n (map fst w))) /\
  exists Ts, length Ts = length w /\ (forall B, In B Ts -> stochastic n B) /\ (tol = 0%num -> Forall2 (eqm n) Ts (transitions n w)) /\
    forall i j, i <= j -> j < n -> A i j = weighted_sum Ts w i j.
Definition good (w : list (mat * num)) (x : acc) : Prop := good_sum w (a_I x) (a_T x) /\ a_t x = duration w.
Lemma good_start : good [] acc0.
Proof.
  split; [|reflexivity]. split; [apply stochastic_ident|]. split; [intros _; apply eqm_refl|]. exists []. split; [reflexivity|]. split; [intros B []|]. split; [intros _; constructor|].
  intros i j _ _. reflexivity.
Qed.
Lemma transitions_snoc w y : transitions n (w ++ [y]) = transitions n w ++ [chain n (map fst (w ++ [y]))].
Proof.
  unfold transitions. rewrite app_length. cbn [length]. rewrite Nat.add_1_r, seq_snoc, map_app. cbn [map Nat.add]. f_equal.
  - apply map_ext_in. intros k Hk. apply in_seq in Hk. rewrite firstn_app. replace (S k - length w) with 0 by lia. cbn [firstn]. now rewrite app_nil_r.
  - now rewrite firstn_all2 by (rewrite app_length; cbn; lia).
Qed.
Lemma good_one mkl w x y : good_sum w (a_I x) (a_T x) -> stochastic n (fst y) ->
  good_sum (w ++ [y]) (a_I (add_one n tol None mkl x y)) (a_T (add_one n tol None mkl x y)).
Proof.
  intros (HT & HC & Ts & HL & HS & HE & HI) HA. cbn [add_one a_I a_T cut].
  set (T := prep n tol (mmul n (a_T x) (prep n tol (fst y)))).
  assert (HTs : stochastic n T) by (now apply next_stochastic).
  assert (HTe : tol = 0%num -> eqm n T (chain n (map fst (w ++ [y])))).
  { intros E. rewrite map_app. apply next_exact; auto. }
  split; [exact HTs|]. split; [exact HTe|]. exists (Ts ++ [T]). split; [rewrite !app_length; cbn; lia|]. split.
  { intros B HB. apply in_app_or in HB. destruct HB as [HB|[<-|[]]]; [now apply HS|exact HTs]. }
  split.
  { intros E. rewrite transitions_snoc. apply Forall2_app; [now apply HE|]. constructor; [now apply HTe|constructor]. }
  intros i j Hij Hj. unfold mplus. rewrite (HI i j Hij Hj). unfold weighted_sum. rewrite map_app, combine_app by (rewrite map_length; exact HL).
  unfold gram_sum. rewrite sumL_app. cbn [map combine]. rewrite sumL_cons. cbn [fst snd].
  replace ((if mkl then upper (gram n (uniform n) T (snd y)) else gram n (uniform n) T (snd y)) i j) with (gram n (uniform n) T (snd y) i j).
  - rewrite sumL_nil. ring.
  - destruct mkl; [|reflexivity]. unfold upper. now rewrite (proj2 (Nat.leb_le i j) Hij).
Qed.
Lemma good_many mkl l : forall w x, good_sum w (a_I x) (a_T x) -> (forall A, In A (map fst l) -> stochastic n A) ->
  good_sum (w ++ l) (a_I (fold_left (add_one n tol None mkl) l x)) (a_T (fold_left (add_one n tol None mkl) l x)).
Proof.
  induction l as [|y l IH]; intros w x H HS; [now rewrite app_nil_r|]. cbn [fold_left].
  replace (w ++ y :: l) with ((w ++ [y]) ++ l) by (now rewrite <- app_assoc). apply IH; [|intros A HA; apply HS; now right].
  apply good_one; [exact H|]. apply HS. now left.
Qed.
Lemma add_one_time mkl l : forall x, a_t (fold_left (add_one n tol None mkl) l x) = a_t x.
Proof. induction l as [|y l IH]; intros x; [reflexivity|]. cbn [fold_left]. rewrite IH. reflexivity. Qed.
Lemma good_slice mkl back w x s : good w x -> slice_ok n s -> good (w ++ steps back (Some s)) (add_slice n tol None mkl back x s).
Proof.
  intros [H Ht] HO. unfold add_slice. split; cbn [a_I a_T a_t].
  - rewrite (slice_steps_spec n back s HO). apply good_many; [exact H|]. intros A HA. exact (steps_stochastic n back s A HO HA).
  - rewrite add_one_time, Ht. unfold duration. rewrite sumL_app, (steps_duration n back s HO). reflexivity.
Qed.

(** what is saved *)
Lemma sum_combine (f : mat * num -> num) Ts w : length Ts = length w ->
  sumL f (combine Ts (map snd w)) = sumN (length w) (fun k => f (nth k Ts ident, snd (nth k w (ident, 0%num)))).
Proof.
  intros H. transitivity (sumL f (firstn (length w) (combine Ts (map snd w)))).
  - f_equal. symmetry. apply firstn_all2. rewrite combine_length, map_length. lia.
  - rewrite (sumL_firstn_nth f (ident, 0%num)) by (rewrite combine_length, map_length; lia). apply sumN_ext. intros k Hk. f_equal.
    rewrite nth_combine_fst by (rewrite ?map_length; lia). f_equal. now rewrite <- (map_nth snd w (ident, 0%num)).
Qed.
Lemma sum_average Ts w A t : length Ts = length w -> (forall B, In B Ts -> stochastic n B) -> t = duration w -> (0 < t)%num ->
  (forall i j, i <= j -> j < n -> A i j = weighted_sum Ts w i j) -> eqm n (integral_of n A t) (average n Ts w).
Proof.
  intros HL HS Ht Hpos HA. assert (Hne := qneq_pos _ Hpos). assert (Hp := uniform_ok).
  assert (HU : forall i j, i <= j -> i < n -> j < n -> integral_of n A t i j = average n Ts w i j).
  { intros i j Hij Hi Hj. unfold integral_of, symmetrised. rewrite (proj2 (Nat.leb_le i j) Hij), (HA i j Hij Hj).
    unfold average. rewrite <- Ht. change (1 / qn n)%num with (uniform n i) at 1 3. change (1 / qn n)%num with (uniform n j) at 1 2.
    assert (E : (uniform n i * weighted_sum Ts w i j * uniform n j)%num =
      sumN (length w) (fun k => (snd (nth k w (ident, 0)) * flow_cov n (uniform n) (nth k Ts ident) i j + snd (nth k w (ident, 0)) * (uniform n i * uniform n j)))%num).
    { unfold weighted_sum, gram_sum. rewrite sum_combine by exact HL. rewrite <- sumN_scal_l, <- sumN_scal_r. apply sumN_ext. intros k Hk. cbn [fst snd].
      assert (HK : k < length Ts) by lia. rewrite (gram_cov n (uniform n) _ _ Hp (HS _ (nth_In Ts ident HK)) i j Hi Hj). ring. }
    rewrite E, sumN_add, sumN_scal_r.
    assert (ED : sumN (length w) (fun k => snd (nth k w (ident, 0%num))) = t).
    { rewrite Ht. unfold duration. rewrite <- (sumL_firstn_nth snd (ident, 0%num) w (length w) (le_n _)), firstn_all. reflexivity. }
    rewrite ED. change (uniform n) with (fun _ : nat => (1 / qn n)%num). cbn beta.
    generalize (sumN (length w) (fun k => (snd (nth k w (ident, 0)) * flow_cov n (fun _ : nat => 1 / qn n) (nth k Ts ident) i j)%num)) (1 / qn n)%num. intros X u. field. exact Hne. }
  intros i j Hi Hj. destruct (Nat.le_ge_cases i j) as [H|H]; [now apply HU|].
  destruct (Nat.eq_dec i j) as [->|N]; [now apply HU|].
  transitivity (integral_of n A t j i).
  - unfold integral_of, symmetrised. destruct (Nat.leb_spec i j) as [|_]; [lia|]. destruct (Nat.leb_spec j i) as [_|]; [|lia]. ring.
  - rewrite (HU j i H Hj Hi). unfold average. f_equal. apply sumN_ext. intros k Hk. f_equal.
    apply (cov_symmetric n (fun _ => 1 / qn n)%num (nth k Ts ident) j i Hj Hi).
Qed.
Lemma average_same Ts Ts' w : Forall2 (eqm n) Ts Ts' -> eqm n (average n Ts w) (average n Ts' w).
Proof.
  intros H i j Hi Hj. unfold average. f_equal. apply sumN_ext. intros k _. f_equal.
  refine (flow_cov_ext n _ _ _ _ i j Hi Hj). revert k. induction H as [|x y l l' Hx H IH]; intros [|k]; cbn; try apply eqm_refl; [exact Hx|apply IH].
Qed.
(** a file that is right *)
Definition right_file (data : nat -> option slice) (a b : nat) (A : mat) (t : num) : Prop :=
  t = duration (walk data a b) /\ (0 < t)%num /\ (forall i j, j < i -> A i j = 0%num) /\
  exists Ts, length Ts = length (walk data a b) /\ (forall B, In B Ts -> stochastic n B) /\
    (tol = 0%num -> Forall2 (eqm n) Ts (transitions n (walk data a b))) /\ forall i j, i <= j -> j < n -> A i j = weighted_sum Ts (walk data a b) i j.
Lemma right_average data a b A t : tol = 0%num -> right_file data a b A t -> holds_average n data a b A t.
Proof.
  intros E (Ht & Hp & H0 & Ts & HL & HS & HE & HA). repeat split; try assumption.
  eapply eqm_trans; [exact (sum_average Ts (walk data a b) A t HL HS Ht Hp HA)|]. apply average_same. now apply HE.
Qed.
Lemma right_rounded data a b A t : right_file data a b A t -> holds_rounded n data a b A t.
Proof.
  intros (Ht & Hp & H0 & Ts & HL & HS & HE & HA). repeat split; try assumption. exists Ts. repeat split; try assumption; try apply HS; try assumption.
  exact (sum_average Ts (walk data a b) A t HL HS Ht Hp HA).
Qed.
Lemma good_right data a b x : good (walk data a b) x -> (0 < a_t x)%num -> right_file data a b (upper (a_I x)) (a_t x).
Proof.
  intros ((_ & _ & Ts & HL & HS & HE & HI) & Ht) Hp. split; [exact Ht|]. split; [exact Hp|]. split.
  - intros i j H. unfold upper. destruct (Nat.leb_spec i j); [lia|reflexivity].
  - exists Ts. split; [exact HL|]. split; [exact HS|]. split; [exact HE|]. intros i j Hij Hj. unfold upper. rewrite (proj2 (Nat.leb_le i j) Hij). now apply HI.
Qed.
Lemma right_good data a b A t T : right_file data a b A t -> stochastic n T -> (tol = 0%num -> eqm n T (chain n (map fst (walk data a b)))) ->
  good (walk data a b) (mkAcc A T t).
Proof.
  intros (Ht & Hp & H0 & Ts & HL & HS & HE & HA) HT HC. split; [|exact Ht]. split; [exact HT|]. split; [exact HC|]. exists Ts. cbn [a_I]. auto.
Qed.
End Sums.

(** ** Restarting *)
Lemma prefix_len_le l : prefix_len l <= length l.
Proof. induction l as [|[|] l IH]; cbn; lia. Qed.
Lemma prefix_len_true l : forall k, k < prefix_len l -> nth k l false = true.
Proof. induction l as [|[|] l IH]; intros k Hk; cbn in Hk; try lia. destruct k as [|k]; [reflexivity|]. cbn. apply IH. lia. Qed.
Lemma in_line_nth back sts : forall a k, in_line back a sts -> k < length sts -> ahead back a (nth k sts 0) /\ in_line back (nth k sts 0) (skipn (S k) sts).
Proof.
  induction sts as [|b sts IH]; intros a k H Hk; cbn [length] in Hk; [lia|]. cbn [in_line] in H. destruct H as [Hb H]. destruct k as [|k]; [split; assumption|].
  cbn [nth]. destruct (IH b k H ltac:(lia)) as [H1 H2]. split; [exact (ahead_trans back a b _ Hb H1)|exact H2].
Qed.

(** ** Programs *)
Section Runs.
Context (n : nat) (tol : num) (Hn : 0 < n) (Ht0 : (0 <= tol)%num) (Ht1 : (tol * qn n < 1)%num).
Context (inter : method -> nat -> option slice) (trans : method -> bool -> nat -> option (mat * num)).
Context (Hslices : all_slices_ok n inter) (Htrans : trans_ok n inter trans).
Notation good := (good n tol).
Notation right_file m := (right_file n tol (inter m)).
(** where the flow is when file (a, k+1) is written *)
Definition reached (a k : nat) : nat := if a <? k + 1 then k + 1 else k.
Definition right_write (w : write) : Prop :=
  match w with
  | WInt m a b A t => right_file m a b A t
  | WTmp a b y k => b = k + 1 /\ good (walk (inter Expm) a (reached a k)) y
  end.
Definition right_disk (d : disk) : Prop :=
  (forall m a b x, d_int d m a b = Some x -> exists A t, x = Whole (A, t) /\ right_file m a b A t) /\
  (forall a b x, d_tmp d a b = Some x -> exists y k, x = Whole (y, k) /\ b = k + 1 /\ good (walk (inter Expm) a (reached a k)) y).
Lemma right_empty : right_disk empty_disk.
Proof. split; [intros m a b x H|intros a b x H]; discriminate H. Qed.
Lemma method_eqb_eq m m' : method_eqb m m' = true -> m = m'.
Proof. destruct m, m'; now intros. Qed.
Lemma right_put d w : right_disk d -> right_write w -> right_disk (put true d w).
Proof.
  intros [H1 H2] Hw. destruct w as [m a b A t|a b y k]; cbn [right_write] in Hw; split; cbn [put d_int d_tmp].
  - intros m' a' b' x H. destruct (method_eqb m' m && (a' =? a) && (b' =? b)) eqn:E; [|now apply H1 in H].
    apply andb_prop in E. destruct E as [E Eb]. apply andb_prop in E. destruct E as [Em Ea]. apply method_eqb_eq in Em. apply Nat.eqb_eq in Ea, Eb. subst.
    injection H as <-. eauto.
  - exact H2.
  - exact H1.
  - intros a' b' x H. destruct ((a' =? a) && (b' =? b)) eqn:E; [|now apply H2 in H].
    apply andb_prop in E. destruct E as [Ea Eb]. apply Nat.eqb_eq in Ea, Eb. subst a' b'. injection H as <-. destruct Hw as [-> Hw]. eauto.
Qed.
Lemma right_puts l : forall d, right_disk d -> Forall right_write l -> right_disk (puts d l).
Proof. induction l as [|w l IH]; intros d H HF; [exact H|]. inversion HF as [|? ? Hw HF']; subst. apply IH; [now apply right_put|exact HF']. Qed.
(** files stay *)
Definition present (d : disk) (m : method) (a b : nat) : Prop := d_int d m a b <> None.
Lemma present_put whole d w m a b : present d m a b -> present (put whole d w) m a b.
Proof. unfold present. intros H. destruct w as [m' a' b' A t|]; cbn [put d_int]; [|exact H]. now destruct (method_eqb m m' && (a =? a') && (b =? b')). Qed.
Lemma present_puts l : forall d m a b, present d m a b -> present (puts d l) m a b.
Proof. induction l as [|w l IH]; intros d m a b H; [exact H|]. apply IH. now apply present_put. Qed.
Lemma puts_app d l l' : puts d (l ++ l') = puts (puts d l) l'.
Proof. apply fold_left_app. Qed.

(** [c] writes right files only; it returns a result satisfying [Q], or raises, which it must
    not do if [must] *)
Definition triple {A} (must : Prop) (d : disk) (c : prog A) (Q : A -> disk -> Prop) : Prop :=
  Forall right_write (fst (c d)) /\ match snd (c d) with Some a => Q a (puts d (fst (c d))) | None => ~ must end.
Definition grows (d d' : disk) : Prop := forall m a b, present d m a b -> present d' m a b.
Lemma triple_ret {A} (must : Prop) d (a : A) (Q : A -> disk -> Prop) : Q a d -> triple must d (ret a) Q.
Proof. intros H. split; [constructor|exact H]. Qed.
Lemma triple_fail {A} (must : Prop) d (Q : A -> disk -> Prop) : ~ must -> triple must d fail Q.
Proof. intros H. split; [constructor|exact H]. Qed.
Lemma triple_emit (must : Prop) d l (Q : unit -> disk -> Prop) : Forall right_write l -> Q tt (puts d l) -> triple must d (emit l) Q.
Proof. intros H HQ. split; [exact H|exact HQ]. Qed.
Lemma triple_bind {A B} must d (c : prog A) (f : A -> prog B) (R : A -> disk -> Prop) (Q : B -> disk -> Prop) :
  right_disk d -> triple must d c R -> (forall a d', grows d d' -> right_disk d' -> R a d' -> triple must d' (f a) Q) -> triple must d (bind c f) Q.
Proof.
  intros Hd [HW HR] HF. unfold triple, bind. destruct (c d) as [l [a|]]; cbn [fst snd] in *; [|split; [exact HW|exact HR]].
  assert (HG : grows d (puts d l)) by (intros m x y; apply present_puts).
  specialize (HF a (puts d l) HG (right_puts l d Hd HW) HR). destruct HF as [HW' HR'].
  destruct (f a (puts d l)) as [l' r]. cbn [fst snd] in *. split; [now apply Forall_app|]. now rewrite puts_app.
Qed.
Lemma triple_weaken {A} must d (c : prog A) (Q Q' : A -> disk -> Prop) : (forall a d', Q a d' -> Q' a d') -> triple must d c Q -> triple must d c Q'.
Proof. intros H [HW HR]. split; [exact HW|]. destruct (snd (c d)); [now apply H|exact HR]. Qed.
Lemma triple_eq {A} must d (c c' : prog A) Q : c d = c' d -> triple must d c' Q -> triple must d c Q.
Proof. unfold triple. now intros ->. Qed.

(** one interval *)
Context (mkl : bool).
Lemma good_interval m back a x k s : good (walk (inter m) a (pos_before back k)) x -> ahead back a (pos_before back k) -> inter m k = Some s ->
  good (walk (inter m) a (pos_after back k)) (add_slice n tol None mkl back x s).
Proof.
  intros Hx Ha Hs. rewrite (walk_step (inter m) back a k Ha), Hs. refine (good_slice n tol Hn Ht0 Ht1 mkl back _ x s Hx (Hslices m k s Hs)).
Qed.
Lemma reached_after back a k : ahead back a (pos_before back k) -> reached a k = pos_after back k.
Proof. unfold reached, ahead, pos_before, pos_after. destruct back, (Nat.ltb_spec a (k + 1)); lia. Qed.
Lemma expm_interval_ok (must : Prop) o back a x k d : right_disk d -> good (walk (inter Expm) a (pos_before back k)) x -> ahead back a (pos_before back k) ->
  (must -> inter Expm k <> None) ->
  triple must d (expm_interval n tol None mkl inter o back a x k) (fun y _ => good (walk (inter Expm) a (pos_after back k)) y).
Proof.
  intros Hd Hx Ha Hm.
  assert (HC : triple must d (match inter Expm k with
      | None => fail
      | Some s => let y := add_slice n tol None mkl back x s in bind (emit (if save_temp o && qltb 0%num (a_t y) then [WTmp a (k + 1) y k] else [])) (fun _ => ret y) end)
      (fun y _ => good (walk (inter Expm) a (pos_after back k)) y)).
  { destruct (inter Expm k) as [s|] eqn:Es; [|apply triple_fail; intros HM; exact (Hm HM eq_refl)]. cbv zeta.
    assert (HG := good_interval Expm back a x k s Hx Ha Es). set (y := add_slice n tol None mkl back x s) in *.
    apply (triple_bind must d _ _ (fun _ _ => True)); [exact Hd| |intros [] d' _ _ _; now apply triple_ret]. apply triple_emit; [|exact I].
    destruct (save_temp o && qltb 0%num (a_t y)); [|constructor]. constructor; [|constructor]. split; [reflexivity|]. now rewrite (reached_after back a k Ha). }
  unfold triple, expm_interval in *. destruct (if save_temp o then d_tmp d a (k + 1) else None) as [z|] eqn:E.
  - assert (Ez : d_tmp d a (k + 1) = Some z) by (destruct (save_temp o); [exact E|discriminate]). apply Hd in Ez. destruct Ez as (y & k' & -> & Ek & HG).
    replace k' with k in * by lia. rewrite Nat.eqb_refl. split; [constructor|]. cbn [snd ret]. now rewrite <- (reached_after back a k Ha).
  - destruct (inter Expm k); exact HC.
Qed.
Lemma interval_ok (must : Prop) o ce cl back a xy k d : right_disk d -> (ce = true -> good (walk (inter Expm) a (pos_before back k)) (fst xy)) -> (cl = true -> good (walk (inter Lin) a (pos_before back k)) (snd xy)) ->
  ahead back a (pos_before back k) -> (must -> ce = true -> inter Expm k <> None) -> (must -> cl = true -> inter Lin k <> None) ->
  triple must d (interval n tol None mkl inter o ce cl back a xy k) (fun xy' _ =>
    (ce = true -> good (walk (inter Expm) a (pos_after back k)) (fst xy')) /\ (cl = true -> good (walk (inter Lin) a (pos_after back k)) (snd xy'))).
Proof.
  intros Hd Hx Hy Ha HE HL. unfold interval. destruct xy as [x y]. cbn [fst snd] in *.
  apply (triple_bind must d _ _ (fun x' _ => ce = true -> good (walk (inter Expm) a (pos_after back k)) x')); [exact Hd| |].
  { destruct ce; [|apply triple_ret; discriminate]. apply (triple_weaken must d _ (fun y _ => good (walk (inter Expm) a (pos_after back k)) y)); [auto|]. apply expm_interval_ok; auto. }
  intros x' d' _ Hd' Hx'. apply (triple_bind must d' _ _ (fun y' _ => cl = true -> good (walk (inter Lin) a (pos_after back k)) y')); [exact Hd'| |].
  { destruct cl; [|apply triple_ret; discriminate]. unfold lin_interval. destruct (inter Lin k) as [s|] eqn:Es; [|apply triple_fail; intros HM; exact (HL HM eq_refl eq_refl)].
    apply triple_ret. intros _. apply good_interval; auto. }
  intros y' d'' _ _ Hy'. apply triple_ret. split; assumption.
Qed.
Lemma intervals_ok (must : Prop) o ce cl back a b : (must -> ce = true -> forall k, k < max a b -> inter Expm k <> None) -> (must -> cl = true -> forall k, k < max a b -> inter Lin k <> None) ->
  forall from, ahead back from b -> forall xy d, ahead back a from -> right_disk d ->
  (ce = true -> good (walk (inter Expm) a from) (fst xy)) -> (cl = true -> good (walk (inter Lin) a from) (snd xy)) ->
  triple must d (loop (interval n tol None mkl inter o ce cl back a) (krange back from b) xy) (fun xy' _ =>
    (ce = true -> good (walk (inter Expm) a b) (fst xy')) /\ (cl = true -> good (walk (inter Lin) a b) (snd xy'))).
Proof.
  intros HE HL. apply (krange_ind back b (fun from ks => forall xy d, ahead back a from -> right_disk d ->
    (ce = true -> good (walk (inter Expm) a from) (fst xy)) -> (cl = true -> good (walk (inter Lin) a from) (snd xy)) ->
    triple must d (loop (interval n tol None mkl inter o ce cl back a) ks xy) (fun xy' _ =>
    (ce = true -> good (walk (inter Expm) a b) (fst xy')) /\ (cl = true -> good (walk (inter Lin) a b) (snd xy'))))).
  - intros xy d _ _ Hx Hy. now apply triple_ret.
  - intros k Hk IH xy d Ha Hd Hx Hy. cbn [loop]. assert (Hk' := ahead_before' back a b k Ha Hk).
    eapply triple_bind; [exact Hd|apply interval_ok; auto|]. cbn beta. intros xy' d' _ Hd' [Hx' Hy']. apply IH; try assumption.
    eapply ahead_trans; [exact Ha|apply ahead_before].
Qed.
Lemma save_ok (must : Prop) m c a b x d : right_disk d -> (c = true -> good (walk (inter m) a b) x) ->
  triple must d (save m c a b x) (fun _ d' => c = true -> (0 < duration (walk (inter m) a b))%num -> present d' m a b).
Proof.
  intros Hd Hx. apply triple_emit.
  - destruct c; [|constructor]. cbn [andb]. destruct (qltb_spec 0%num (a_t x)) as [Hp|_]; [|constructor]. constructor; [|constructor].
    exact (good_right n tol Hn (inter m) a b x (Hx eq_refl) Hp).
  - intros -> Hp. cbn [andb]. rewrite <- (proj2 (Hx eq_refl)) in Hp. destruct (qltb_spec 0%num (a_t x)) as [_|Hq]; [|contradiction].
    unfold present, puts. cbn [fold_left put d_int]. rewrite !Nat.eqb_refl. destruct m; cbn; discriminate.
Qed.
(** the files of the stop are there *)
Definition done_at (ce cl : bool) (a b : nat) (d : disk) : Prop :=
  (ce = true -> (0 < duration (walk (inter Expm) a b))%num -> present d Expm a b) /\ (cl = true -> (0 < duration (walk (inter Lin) a b))%num -> present d Lin a b).
Lemma done_grows ce cl a b d d' : grows d d' -> done_at ce cl a b d -> done_at ce cl a b d'.
Proof. intros HG [H1 H2]. split; intros Hc Hp; apply HG; auto. Qed.
Lemma integral_ok (must : Prop) o ce cl back a b st d : (must -> ce = true -> forall k, k < max a b -> inter Expm k <> None) -> (must -> cl = true -> forall k, k < max a b -> inter Lin k <> None) ->
  ahead back (fst st) b -> ahead back a (fst st) -> right_disk d ->
  (ce = true -> good (walk (inter Expm) a (fst st)) (fst (snd st))) -> (cl = true -> good (walk (inter Lin) a (fst st)) (snd (snd st))) ->
  triple must d (integral n tol None mkl inter o ce cl back a st b) (fun st' d' => fst st' = b /\
    (ce = true -> good (walk (inter Expm) a b) (fst (snd st'))) /\ (cl = true -> good (walk (inter Lin) a b) (snd (snd st'))) /\ done_at ce cl a b d').
Proof.
  intros HE HL H1 H2 Hd Hx Hy. unfold integral. eapply triple_bind; [exact Hd|apply (intervals_ok must o ce cl back a b HE HL (fst st) H1); assumption|]. cbn beta.
  intros [x y] d1 _ Hd1 [Hx' Hy']. cbn [fst snd] in *. eapply triple_bind; [exact Hd1|apply (save_ok must Expm ce a b x d1 Hd1 Hx')|]. cbn beta.
  intros [] d2 G2 Hd2 HP2. eapply triple_bind; [exact Hd2|apply (save_ok must Lin cl a b y d2 Hd2 Hy')|]. cbn beta.
  intros [] d3 G3 Hd3 HP3. apply triple_ret. cbn [fst snd]. split; [reflexivity|]. split; [exact Hx'|]. split; [exact Hy'|]. split; [|exact HP3]. intros Hc Hp. apply G3. auto.
Qed.
Lemma integrals_ok (must : Prop) o ce cl back a sts : (must -> ce = true -> forall b k, In b sts -> k < max a b -> inter Expm k <> None) -> (must -> cl = true -> forall b k, In b sts -> k < max a b -> inter Lin k <> None) ->
  forall st d, in_line back (fst st) sts -> ahead back a (fst st) -> right_disk d ->
  (ce = true -> good (walk (inter Expm) a (fst st)) (fst (snd st))) -> (cl = true -> good (walk (inter Lin) a (fst st)) (snd (snd st))) ->
  triple must d (loop (integral n tol None mkl inter o ce cl back a) sts st) (fun _ d' => forall b, In b sts -> done_at ce cl a b d').
Proof.
  induction sts as [|b sts IH]; intros HE HL st d Hl Ha Hd Hx Hy; cbn [loop].
  - apply triple_ret. intros b [].
  - cbn [in_line] in Hl. destruct Hl as [Hb Hl]. eapply triple_bind; [exact Hd|apply integral_ok; try assumption|].
    + intros HM Hc k Hk. refine (HE HM Hc b k (or_introl eq_refl) Hk).
    + intros HM Hc k Hk. refine (HL HM Hc b k (or_introl eq_refl) Hk).
    + cbn beta. intros st' d1 G1 Hd1 (E & Hx' & Hy' & HD).
      assert (HT : triple must d1 (loop (integral n tol None mkl inter o ce cl back a) sts st') (fun _ d' => grows d1 d' /\ forall b0, In b0 sts -> done_at ce cl a b0 d')).
      { assert (HI := IH (fun HM Hc b0 k Hin => HE HM Hc b0 k (or_intror Hin)) (fun HM Hc b0 k Hin => HL HM Hc b0 k (or_intror Hin)) st' d1).
        rewrite E in HI. specialize (HI Hl (ahead_trans back a _ b Ha Hb) Hd1 Hx' Hy'). destruct HI as [HW HQ]. split; [exact HW|].
        destruct (snd (loop _ sts st' d1)); [|exact HQ]. split; [intros m x y; apply present_puts|exact HQ]. }
      eapply triple_weaken; [|exact HT]. cbn beta. intros _ d' [G2 HQ] b0 [<-|Hin]; [now apply (done_grows ce cl a b d1)|now apply HQ].
Qed.

(** restarting *)
Lemma prefix_present d m a sts k : k < prefix_len (map (exists_int d m a) sts) -> present d m a (nth k sts 0).
Proof.
  intros H. assert (HT := prefix_len_true _ k H). assert (HL := prefix_len_le (map (exists_int d m a) sts)). rewrite map_length in HL.
  rewrite (nth_indep _ false (exists_int d m a 0)) in HT by (rewrite map_length; lia). rewrite map_nth in HT. unfold exists_int in HT. unfold present. now destruct (d_int d m a (nth k sts 0)).
Qed.
Lemma load_trans_ok m back a b : forall from, ahead back from b -> forall T t, ahead back a from ->
  stochastic n T -> (tol = 0%num -> eqm n T (chain n (map fst (walk (inter m) a from)))) -> t = duration (walk (inter m) a from) ->
  match load_trans n tol trans m back (krange back from b) T t with
  | Some (T', t') => stochastic n T' /\ (tol = 0%num -> eqm n T' (chain n (map fst (walk (inter m) a b)))) /\ t' = duration (walk (inter m) a b)
  | None => exists k, k < max a b /\ trans m back k = None
  end.
Proof.
  apply (krange_ind back b (fun from ks => forall T t, ahead back a from -> stochastic n T ->
    (tol = 0%num -> eqm n T (chain n (map fst (walk (inter m) a from)))) -> t = duration (walk (inter m) a from) ->
    match load_trans n tol trans m back ks T t with
    | Some (T', t') => stochastic n T' /\ (tol = 0%num -> eqm n T' (chain n (map fst (walk (inter m) a b)))) /\ t' = duration (walk (inter m) a b)
    | None => exists k, k < max a b /\ trans m back k = None
    end)).
  - intros T t _ HT HC Ht. cbn. auto.
  - intros k Hk IH T t Ha HT HC Ht. cbn [load_trans]. destruct (trans m back k) as [[A dt]|] eqn:E; [|exists k; split; [exact (ahead_before' back a b k Ha Hk)|exact E]].
    destruct (Htrans m back k A dt E) as (s & Hs & HA & Hdt). assert (HO := Hslices m k s Hs).
    assert (HSA : stochastic n A). { apply (stochastic_ext n (chain n (map fst (steps back (Some s))))); [now apply eqm_sym|]. apply stochastic_chain. intros B HB. exact (steps_stochastic n back s B HO HB). }
    assert (HW := walk_step (inter m) back a k Ha). rewrite Hs in HW. apply IH.
    + eapply ahead_trans; [exact Ha|apply ahead_before].
    + now apply next_stochastic.
    + intros Etol. rewrite HW, map_app. eapply eqm_trans; [apply (prep_exact n tol Ht0 Ht1); [exact Etol|apply stochastic_mmul; [exact HT|now apply prep_stochastic]]|].
      eapply eqm_trans; [apply mmul_ext; [exact (HC Etol)|apply (prep_exact n tol Ht0 Ht1); assumption]|].
      eapply eqm_trans; [apply mmul_ext; [apply eqm_refl|exact HA]|].
      generalize (map fst (walk (inter m) a (pos_before back k))) (map fst (steps back (Some s))). intros l l'. clear. induction l as [|B l IH]; cbn; [apply mmul_ident_l|].
      eapply eqm_trans; [apply mmul_assoc|]. apply mmul_ext; [apply eqm_refl|exact IH].
    + rewrite Ht, HW. unfold duration. rewrite sumL_app, (steps_duration n back s HO), Hdt. reflexivity.
Qed.
(** result of [resume] *)
Definition resumed (o : options) (m : method) (back : bool) (a : nat) (sts : list nat) (r : bool * (nat * list nat * acc)) (d' : disk) : Prop :=
  let '(all, (from, sts', x)) := r in
  good (walk (inter m) a from) x /\ ahead back a from /\ in_line back from sts' /\ incl sts' sts /\
  (all = true -> from = a /\ sts' = sts /\ x = acc0 /\ forall b, In b sts -> present d' m a b) /\
  (all = false -> forall b, In b sts -> In b sts' \/ present d' m a b) /\ (use_expm o = use_lin o -> from = a /\ sts' = sts /\ x = acc0).
Lemma resume_ok (must : Prop) o m back a sts d : right_disk d -> in_line back a sts ->
  (must -> (forall b, d_int d m a b = None) \/ (use_expm o <> use_lin o /\ forall b k, In b sts -> k < max a b -> trans m back k <> None)) ->
  triple must d (resume n tol trans o m back a a sts acc0) (resumed o m back a sts).
Proof.
  intros Hd Hl Hm. set (q := prefix_len (map (exists_int d m a) sts)).
  assert (Hg0 : good (walk (inter m) a a) acc0) by (rewrite walk_same; apply good_start).
  assert (Hq : q <= length sts) by (unfold q; rewrite <- (map_length (exists_int d m a) sts); apply prefix_len_le).
  assert (HP : forall k, k < q -> present d m a (nth k sts 0)) by (intros k; apply prefix_present).
  unfold triple, resume. fold q. cbv zeta. destruct (Nat.eqb_spec q 0) as [E0|N0].
  - apply triple_ret. cbn [resumed]. split; [exact Hg0|]. split; [apply ahead_refl|]. split; [exact Hl|]. split; [apply incl_refl|]. split; [discriminate|]. split; auto.
  - destruct (Nat.eqb_spec q (length sts)) as [E1|N1].
    + apply triple_ret. cbn [resumed]. split; [exact Hg0|]. split; [apply ahead_refl|]. split; [exact Hl|]. split; [apply incl_refl|]. split; [|split; [discriminate|auto]].
      intros _. split; [reflexivity|]. split; [reflexivity|]. split; [reflexivity|]. intros b Hb. apply In_nth with (d := 0) in Hb. destruct Hb as (k & Hk & <-). apply HP. lia.
    + set (b := nth (q - 1) sts 0). assert (Hb : In b sts) by (apply nth_In; lia). assert (Hpb := HP (q - 1) ltac:(lia)). fold b in Hpb. unfold present in Hpb.
      destruct (d_int d m a b) as [z|] eqn:Ez; [|congruence]. destruct (proj1 Hd m a b z Ez) as (A & t & -> & HR).
      destruct (in_line_nth back sts a (q - 1) Hl ltac:(lia)) as [Hab Hline]. fold b in Hab, Hline. replace (S (q - 1)) with q in Hline by lia.
      assert (HT := load_trans_ok m back a b a Hab ident 0%num (ahead_refl back a) (stochastic_ident n)). rewrite walk_same in HT.
      specialize (HT (fun _ => eqm_refl n _) eq_refl). destruct (load_trans n tol trans m back (krange back a b) ident 0%num) as [[T t']|].
      * destruct HT as (HT & HC & Ht'). destruct (Bool.eqb (use_expm o) (use_lin o)) eqn:Eo.
        { apply triple_fail. intros HM. destruct (Hm HM) as [HN|[HN _]]; [congruence|]. apply HN. now apply Bool.eqb_prop. }
        apply triple_ret. cbn [resumed]. split; [|split; [exact Hab|split; [exact Hline|split]]].
        { replace t' with t; [now apply right_good|]. rewrite Ht'. exact (proj1 HR). }
        { intros y Hy. rewrite <- (firstn_skipn q sts). apply in_or_app. now right. }
        split; [discriminate|]. split.
        { intros _ y Hy. rewrite <- (firstn_skipn q sts) in Hy. apply in_app_or in Hy. destruct Hy as [Hy|Hy]; [right|now left].
          apply In_nth with (d := 0) in Hy. destruct Hy as (k & Hk & <-). rewrite firstn_length in Hk.
          replace (nth k (firstn q sts) 0) with (nth k sts 0); [apply HP; lia|]. rewrite <- (firstn_skipn q sts) at 1. apply app_nth1. rewrite firstn_length. lia. }
        { intros Ex. rewrite Ex, Bool.eqb_reflx in Eo. discriminate. }
      * apply triple_fail. intros HM. destruct (Hm HM) as [HN|[_ HN]]; [congruence|]. destruct HT as (k & Hk & HT). exact (HN b k Hb Hk HT).
Qed.

(** ** Tasks *)
Lemma worker_ok (must : Prop) o back a sts d : right_disk d -> in_line back a sts ->
  (must -> (forall m b, d_int d m a b = None) \/ (use_expm o <> use_lin o /\ forall m b k, uses o m = true -> In b sts -> k < max a b -> trans m back k <> None)) ->
  (must -> forall m b k, uses o m = true -> In b sts -> k < max a b -> inter m k <> None) ->
  triple must d (worker n tol None mkl inter trans o back a sts) (fun _ d' => complete inter o a sts d').
Proof.
  intros Hd Hl Hm Hi. unfold worker.
  apply (triple_bind must d _ _ (fun r d' => grows d d' /\ (forall m b, d_int d m a b = None -> d_int d' m a b = None) /\ (use_expm o = true -> resumed o Expm back a sts r d') /\ (use_expm o = false -> r = (false, (a, sts, acc0))))); [exact Hd| |].
  { destruct (use_expm o) eqn:Ee.
    - assert (HT := resume_ok must o Expm back a sts d Hd Hl). specialize (HT ltac:(intros HM; destruct (Hm HM) as [HN|[HN1 HN2]]; [left; apply HN|right; split; [congruence|intros b k; apply HN2; exact Ee]])).
      assert (HW : fst (resume n tol trans o Expm back a a sts acc0 d) = []).
      { clear. unfold resume. cbv zeta. destruct (_ =? 0); [reflexivity|]. destruct (_ =? _); [reflexivity|]. destruct (d_int d Expm a _) as [[[A t]|]|]; try reflexivity.
        destruct (load_trans _ _ _ _ _ _ _ _) as [[T t']|]; [|reflexivity]. now destruct (Bool.eqb _ _). }
      destruct HT as [HF HQ]. split; [exact HF|]. rewrite HW in *. destruct (snd _); [|exact HQ]. cbn [puts fold_left] in *.
      split; [intros m x y Hxy; exact Hxy|]. split; [auto|]. split; [auto|discriminate].
    - apply triple_ret. split; [intros m x y Hxy; exact Hxy|]. split; [auto|]. split; [discriminate|reflexivity]. }
  intros [all1 [[from1 sts1] x]] d1 _ Hd1 (G1 & N1 & HR1 & HF1). cbn beta iota.
  assert (HL1 : use_lin o = true -> use_expm o = true -> from1 = a /\ sts1 = sts).
  { intros El Ee. specialize (HR1 Ee). cbn in HR1. destruct HR1 as (_ & _ & _ & _ & _ & _ & H). destruct (H ltac:(congruence)) as (-> & -> & _). auto. }
  assert (HL1' : use_lin o = true -> from1 = a /\ sts1 = sts).
  { intros El. destruct (use_expm o) eqn:Ee; [now apply HL1|]. specialize (HF1 eq_refl). injection HF1 as _ -> -> _. auto. }
  apply (triple_bind must d1 _ _ (fun r d' => grows d1 d' /\ (use_lin o = true -> resumed o Lin back a sts r d') /\ (use_lin o = false -> r = (false, (from1, sts1, acc0))))); [exact Hd1| |].
  { destruct (use_lin o) eqn:El.
    - destruct (HL1' eq_refl) as [-> ->].
      assert (HT := resume_ok must o Lin back a sts d1 Hd1 Hl). specialize (HT ltac:(intros HM; destruct (Hm HM) as [HN|[HN1 HN2]]; [left; intros b; apply N1, HN|right; split; [congruence|intros b k; apply HN2; exact El]])).
      destruct HT as [HF HQ]. split; [exact HF|]. destruct (snd _); [|exact HQ]. split; [intros m u v; apply present_puts|]. split; [auto|discriminate].
    - apply triple_ret. split; [intros m u v Huv; exact Huv|]. split; [discriminate|reflexivity]. }
  intros [all2 [[from2 sts2] y]] d2 _ Hd2 (G2 & HR2 & HF2). cbn beta iota.
  set (ce := use_expm o && negb all1). set (cl := use_lin o && negb all2).
  (** the three cases: only one method, or both *)
  assert (HC : (ce = true -> good (walk (inter Expm) a from2) x) /\ (cl = true -> good (walk (inter Lin) a from2) y) /\
    (ce || cl = true -> ahead back a from2 /\ in_line back from2 sts2 /\ incl sts2 sts) /\
    (forall b, In b sts -> (use_expm o = true -> present d2 Expm a b \/ (ce = true /\ In b sts2)) /\ (use_lin o = true -> present d2 Lin a b \/ (cl = true /\ In b sts2)))).
  { destruct (use_expm o) eqn:Ee, (use_lin o) eqn:El; unfold ce, cl; cbn [andb].
    - destruct (HL1' eq_refl) as [-> ->]. specialize (HR1 eq_refl). specialize (HR2 eq_refl). cbn in HR1, HR2.
      destruct HR1 as (X1 & X2 & X3 & _ & X4 & X5 & X6). destruct HR2 as (Y1 & Y2 & Y3 & Y0 & Y4 & Y5 & Y6). rewrite Ee, El in *. destruct (X6 eq_refl) as (_ & _ & ->). destruct (Y6 eq_refl) as (-> & -> & ->).
      split; [intros _; exact X1|]. split; [intros _; exact Y1|]. split; [intros _; split; [exact Y2|split; [exact Y3|exact Y0]]|]. intros b Hb. split; intros _.
      + destruct all1; [left; apply G2; now apply X4|right; auto].
      + destruct all2; [left; now apply Y4|right; auto].
    - specialize (HF2 eq_refl). injection HF2 as -> -> -> ->. specialize (HR1 eq_refl). cbn in HR1. destruct HR1 as (X1 & X2 & X3 & X0 & X4 & X5 & X6).
      split; [intros _; exact X1|]. split; [discriminate|]. split; [intros _; split; [exact X2|split; [exact X3|exact X0]]|]. intros b Hb. split; [intros _|discriminate].
      destruct all1; [left; apply G2; now apply X4|]. destruct (X5 eq_refl b Hb) as [Hin|Hp]; [right; auto|left; now apply G2].
    - destruct (HL1' eq_refl) as [-> ->]. specialize (HR2 eq_refl). cbn in HR2. destruct HR2 as (X1 & X2 & X3 & X0 & X4 & X5 & X6).
      split; [discriminate|]. split; [intros _; exact X1|]. split; [intros _; split; [exact X2|split; [exact X3|exact X0]]|]. intros b Hb. split; [discriminate|intros _].
      destruct all2; [left; now apply X4|]. destruct (X5 eq_refl b Hb) as [Hin|Hp]; [right; auto|now left].
    - split; [discriminate|]. split; [discriminate|]. split; [discriminate|]. intros b Hb. split; discriminate. }
  destruct HC as (Hx & Hy & HA & HC).
  assert (HCO : forall d', grows d2 d' -> (forall b, In b sts2 -> done_at ce cl a b d') -> complete inter o a sts d').
  { intros d' G HD m b Hu Hb Hp. destruct (HC b Hb) as [H1 H2]. destruct m; cbn in Hu.
    - destruct (H1 Hu) as [H|[Hc Hin]]; [now apply G|]. now apply (HD b Hin).
    - destruct (H2 Hu) as [H|[Hc Hin]]; [now apply G|]. now apply (HD b Hin). }
  destruct (ce || cl) eqn:EC.
  - destruct (HA eq_refl) as (HA1 & HA2 & HA3). eapply triple_bind; [exact Hd2|apply (integrals_ok must o ce cl back a sts2); try assumption|].
    + intros HM Hc b k Hb Hk. unfold ce in Hc. apply andb_prop in Hc. refine (Hi HM Expm b k (proj1 Hc) (HA3 b Hb) Hk).
    + intros HM Hc b k Hb Hk. unfold cl in Hc. apply andb_prop in Hc. refine (Hi HM Lin b k (proj1 Hc) (HA3 b Hb) Hk).
    + cbn beta. intros _ d3 G3 Hd3 HD. apply triple_ret. exact (HCO d3 G3 HD).
  - apply triple_ret. apply (HCO d2); [intros m u v Huv; exact Huv|]. intros b Hb. apply Bool.orb_false_iff in EC. destruct EC as [-> ->]. split; discriminate.
Qed.
End Runs.
