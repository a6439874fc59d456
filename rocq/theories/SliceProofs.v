(** Lemmas about slices of time. *)
From Coq Require Import Qround.
From Verif Require Import Base PartitionModel LouvainModel EventsModel EventsSpec EventsProofs LaplacianProofs EventsProps TransModel TransSpec MatProofs TransProofs TransProps SliceModel SliceSpec.

(** ** Bounds *)
Section Exact.
Context (len tend : num) (Hlen : (0 < len)%num).
Notation after := (bounds_after Qcplus qltb len tend).
Lemma after_more fuel fuel' t l : after fuel t = Some l -> fuel <= fuel' -> after fuel' t = Some l.
Proof using.
  revert fuel' t l. induction fuel as [|f IH]; intros fuel' t l H Hle; destruct fuel' as [|f']; cbn [bounds_after] in *; try (destruct (qltb t tend); [discriminate|exact H]); try lia; auto.
  destruct (qltb t tend); [|exact H]. destruct (after f (t + len)%num) as [l0|] eqn:E; [|discriminate]. rewrite (IH f' _ l0 E) by lia. exact H.
Qed.
Lemma after_spec fuel t l : after fuel t = Some l ->
  (forall i, i < length l -> nth i l 0%num = (t + qn (S i) * len)%num) /\
  (forall i, i < length l -> (nth i (t :: l) 0 < tend)%num) /\ (tend <= nth (length l) (t :: l) 0)%num.
Proof using.
  revert t l. induction fuel as [|f IH]; intros t l; cbn [bounds_after]; destruct (qltb_spec t tend) as [Ht|Ht].
  - discriminate.
  - intros [= <-]. cbn. split; [lia|]. split; [lia|]. now apply Qcnot_lt_le.
  - destruct (after f (t + len)%num) as [l0|] eqn:E; [|discriminate]. intros [= <-]. destruct (IH _ _ E) as (H1 & H2 & H3). split; [|split].
    + intros [|i] Hi; cbn [nth]; [rewrite qn_S, qn_0; ring|]. rewrite H1 by (cbn in Hi; lia). rewrite (qn_S (S i)). ring.
    + intros [|i] Hi; [exact Ht|]. apply H2. cbn in Hi. lia.
    + exact H3.
  - intros [= <-]. cbn. split; [lia|]. split; [lia|]. now apply Qcnot_lt_le.
Qed.
Lemma after_total m t : (tend <= t + qn m * len)%num -> exists l, after m t = Some l /\ length l <= m.
Proof using.
  revert t. induction m as [|m IH]; intros t H; cbn [bounds_after].
  - destruct (qltb_spec t tend) as [Ht|Ht]; [|exists []; split; [reflexivity|cbn; lia]]. exfalso. rewrite qn_0 in H. replace (t + 0 * len)%num with t in H by ring. exact (Qclt_not_le _ _ Ht H).
  - destruct (qltb_spec t tend) as [Ht|Ht]; [|exists []; split; [reflexivity|cbn; lia]]. destruct (IH (t + len)%num) as (l & -> & Hl).
    + rewrite qn_S in H. replace (t + len + qn m * len)%num with (t + (qn m + 1) * len)%num by ring. exact H.
    + eexists. split; [reflexivity|]. cbn. lia.
Qed.
End Exact.
Lemma qn_unbounded x : exists m, (x <= qn m)%num.
Proof.
  exists (Z.to_nat (Qceiling x)). apply qc_le_this. rewrite this_qn.
  apply Qle_trans with (inject_Z (Qceiling x)); [apply Qle_ceiling|]. rewrite <- Zle_Qle. lia.
Qed.
Lemma slices_exist t0 tend len : (0 < len)%num -> exists fuel l, slices_exact t0 tend len fuel = Some l.
Proof.
  intros Hlen. destruct (qn_unbounded ((tend - t0) / len)%num) as (m & Hm).
  destruct (after_total len tend m t0) as (l & E & _).
  - assert (H : ((tend - t0) / len * len <= qn m * len)%num) by (apply Qcmult_le_compat_r; [exact Hm|now apply Qclt_le_weak]).
    replace ((tend - t0) / len * len)%num with (tend - t0)%num in H by (field; intros K; rewrite K in Hlen; revert Hlen; apply Qcle_not_lt, Qcle_refl). revert H. generalize (qn m * len)%num. intros y H. qlra.
  - exists m, (t0 :: l). unfold slices_exact, time_slices. now rewrite E.
Qed.
Lemma slices_more t0 tend len fuel fuel' l : slices_exact t0 tend len fuel = Some l -> fuel <= fuel' -> slices_exact t0 tend len fuel' = Some l.
Proof.
  unfold slices_exact, time_slices. destruct (bounds_after Qcplus qltb len tend fuel t0) as [l0|] eqn:E; [|discriminate]. intros H Hle. now rewrite (after_more len tend _ _ _ _ E Hle).
Qed.
Lemma slices_regular t0 tend len fuel l : slices_exact t0 tend len fuel = Some l ->
  regular t0 len l /\ (tend <= last l t0)%num /\ forall i, S i < length l -> (nth i l 0 < tend)%num.
Proof.
  unfold slices_exact, time_slices. destruct (bounds_after Qcplus qltb len tend fuel t0) as [l0|] eqn:E; [|discriminate]. intros [= <-]. destruct (after_spec len tend _ _ _ E) as (H1 & H2 & H3). split; [|split].
  - split; [discriminate|]. intros [|i] Hi; cbn [nth]; [rewrite qn_0; ring|]. apply H1. cbn in Hi. lia.
  - rewrite last_nth. cbn [length]. rewrite Nat.sub_1_r. cbn [pred]. rewrite (nth_indep _ t0 0%num) by (cbn; lia). exact H3.
  - intros i Hi. apply H2. cbn in Hi. lia.
Qed.
Lemma slices_of_length {T} (l : list T) : length (slices_of l) = length l - 1.
Proof.
  unfold slices_of. rewrite combine_length. destruct l as [|a l]; [reflexivity|]. rewrite (removelast_firstn_len (a :: l)), firstn_length. cbn. lia.
Qed.
Lemma slices_of_cons {T} (a b : T) l : slices_of (a :: b :: l) = (a, b) :: slices_of (b :: l).
Proof. reflexivity. Qed.
Lemma slices_of_nth {T} (l : list T) i d : S i < length l -> nth i (slices_of l) (d, d) = (nth i l d, nth (S i) l d).
Proof.
  revert i. induction l as [|a [|b l] IH]; intros i Hi; [cbn in Hi; lia|cbn in Hi; lia|]. rewrite slices_of_cons. destruct i as [|i]; [reflexivity|]. cbn [nth]. rewrite (IH i) by (cbn in *; lia). reflexivity.
Qed.

(** ** Batches *)
Lemma firstn_skipn_concat {A} (l : list A) (s m : nat) : concat (map (fun b => firstn (S b * s - b * s) (skipn (b * s) l)) (seq 0 m)) = firstn (m * s) l.
Proof.
  induction m as [|m IH]; [reflexivity|]. rewrite seq_S, map_app, concat_app, IH. cbn [plus map concat]. rewrite app_nil_r. replace (S m * s - m * s) with s by lia.
  rewrite <- (firstn_skipn (m * s) l) at 3. rewrite firstn_app, firstn_firstn, firstn_length. replace (Nat.min (S m * s) (m * s)) with (m * s) by lia. f_equal.
  destruct (Nat.le_gt_cases (m * s) (length l)) as [H|H].
  - replace (S m * s - Nat.min (m * s) (length l)) with s by lia. reflexivity.
  - rewrite !skipn_all2 by lia. now rewrite !firstn_nil.
Qed.
Lemma batches_concat {A} (full : list A) total : 0 < total -> concat (map (batch full total) (seq 0 total)) = full.
Proof.
  intros Ht. destruct total as [|m]; [lia|]. set (s := length full / S m). rewrite seq_S, map_app, concat_app. cbn [plus map concat]. rewrite app_nil_r.
  assert (E1 : map (batch full (S m)) (seq 0 m) = map (fun b => firstn (S b * s - b * s) (skipn (b * s) full)) (seq 0 m)).
  { apply map_ext_in. intros b Hb. apply in_seq in Hb. unfold batch. destruct (Nat.eqb_spec (S b) (S m)); [lia|]. reflexivity. }
  rewrite E1, firstn_skipn_concat. unfold batch. rewrite Nat.eqb_refl. apply firstn_skipn.
Qed.
Lemma filter_concat {A} (f : A -> bool) (l : list (list A)) : filter f (concat l) = concat (map (filter f) l).
Proof. induction l as [|a l IH]; [reflexivity|]. cbn. now rewrite filter_app, IH. Qed.
Lemma batch_length {A} (full : list A) total b : b < total ->
  length (batch full total b) = length full / total + (if S b =? total then length full mod total else 0).
Proof.
  intros Hb. unfold batch. pose proof (Nat.div_mod (length full) total ltac:(lia)) as HD. set (s := length full / total) in *. destruct (Nat.eqb_spec (S b) total) as [E|E].
  - rewrite skipn_length. rewrite <- E in *. nia.
  - rewrite firstn_length, skipn_length. nia.
Qed.

(** ** Laplacians of consecutive slices *)
Lemma start_unique ts t k k' : StronglySorted Qclt ts -> k < length ts -> k' < length ts -> start_index ts (Some t) k -> start_index ts (Some t) k' -> k = k'.
Proof.
  intros HS Hk Hk' [[H1 H2]|[-> H]] [[H3 H4]|[-> H']]; auto.
  - destruct (Nat.lt_trichotomy k k') as [Hlt|[Heq|Hlt]]; [|exact Heq|].
    + exfalso. exact (Qclt_not_le _ _ (H2 k' Hlt Hk') H3).
    + exfalso. exact (Qclt_not_le _ _ (H4 k Hlt Hk) H1).
  - exfalso. exact (Qclt_not_le _ _ (H' _ (nth_In ts 0%num Hk)) H1).
  - exfalso. exact (Qclt_not_le _ _ (H _ (nth_In ts 0%num Hk')) H3).
Qed.
Lemma start_mono ts t t' k k' : StronglySorted Qclt ts -> (t <= t')%num -> k < length ts -> k' < length ts -> start_index ts (Some t) k -> start_index ts (Some t') k' -> k <= k'.
Proof.
  intros HS Ht Hk Hk' [[H1 H2]|[-> H]] [[H3 H4]|[-> H']]; try lia.
  - destruct (Nat.le_gt_cases k k') as [Hle|Hlt]; [exact Hle|]. exfalso. pose proof (H4 k Hlt Hk) as H5. apply (Qclt_not_le _ _ H5). apply Qcle_trans with t; assumption.
  - destruct k as [|k]; [lia|]. exfalso. apply (Qclt_not_le _ _ (H' _ (nth_In ts 0%num Hk))). apply Qcle_trans with t; assumption.
Qed.
Lemma walk_laplacian_unique n R L L' : walk_laplacian n R L -> walk_laplacian n R L' -> eqm n L L'.
Proof.
  intros (adj & H1 & H2) (adj' & H1' & H2') i j Hi Hj. rewrite H2, H2' by assumption. f_equal.
  assert (EA : forall j, j < n -> adj i j = adj' i j). { intros m Hm. pose proof (H1 i m Hi Hm). pose proof (H1' i m Hi Hm). destruct (adj i m), (adj' i m); intuition congruence. }
  unfold walk, degree. rewrite (filter_ext_in (adj i) (adj' i)) by (intros a Ha; apply EA; apply in_seq in Ha; lia). now rewrite EA.
Qed.
Lemma last_first {A} (l : list A) a b : last (b :: l) a = last l b.
Proof. revert a b. induction l as [|c l IH]; intros a b; [reflexivity|]. change (last (b :: c :: l) a) with (last (c :: l) a). now rewrite !IH. Qed.
Section Slices.
Context (N : net) (g : list grid_row).
Notation ts := (times (rows N)).
Notation n := (num_nodes_of N).
(** [Ls] are the right Laplacians of the steps from ka on *)
Definition right_from (ka : nat) (Ls : list mat) : Prop :=
  forall k u, k < length Ls -> (nth (ka + k) ts 0 <= u)%num -> (u < nth (S (ka + k)) ts 0)%num ->
    walk_laplacian n (fun i j => contact (rows N) i j u) (nth k Ls (fun _ _ => 0%num)).
Context (HLap : forall a b, exists ka kb Ls, compute_laplacians N g a b = Some (ka, kb, Ls) /\ start_index ts a ka /\ stop_index ts b kb /\
    length Ls = kb - ka /\ ka < length ts /\ kb < length ts /\ right_from ka Ls).
Lemma right_app ka l l' : right_from ka l -> right_from (ka + length l) l' -> right_from ka (l ++ l').
Proof using.
  intros H1 H2 k u Hk Ha Hb. destruct (Nat.lt_ge_cases k (length l)) as [Hlt|Hge].
  - rewrite app_nth1 by exact Hlt. now apply H1.
  - rewrite app_nth2 by exact Hge. rewrite app_length in Hk. apply H2; [lia| |]; replace (ka + length l + (k - length l)) with (ka + k) by lia; assumption.
Qed.
Lemma right_unique ka l l' : ka + length l < length ts -> length l = length l' -> right_from ka l -> right_from ka l' -> same_matrices n l l'.
Proof using.
  intros Hlt HL H1 H2. split; [exact HL|]. intros k Hk. rewrite (nth_indep l ident (fun _ _ => 0%num)), (nth_indep l' ident (fun _ _ => 0%num)) by lia.
  pose proof (times_sorted (rows N)) as HS. destruct (next_time_nth ts (ka + k) HS ltac:(lia)) as [HN _].
  apply (walk_laplacian_unique n (fun i j => contact (rows N) i j (nth (ka + k) ts 0%num))); [apply H1|apply H2]; try lia; try assumption; apply Qcle_refl.
Qed.
Lemma slices_laplacians a bounds : increasing (a :: bounds) -> exists rs ka kb, map (slice_laplacians N g) (slices_of (a :: bounds)) = map Some rs /\
  start_index ts (Some a) ka /\ start_index ts (Some (last bounds a)) kb /\ ka < length ts /\ kb < length ts /\ ka <= kb /\ contiguous ka rs kb /\
  length (concat (map snd rs)) = kb - ka /\ right_from ka (concat (map snd rs)).
Proof using HLap.
  revert a. induction bounds as [|b bounds IH]; intros a HI.
  - destruct (HLap (Some a) (Some a)) as (ka & kb & Ls & _ & Ha & _ & _ & Hlt & _). exists [], ka, ka. cbn [last contiguous map concat length]. split; [reflexivity|]. repeat (split; [assumption || reflexivity || lia|]). intros k u Hk. cbn in Hk. lia.
  - assert (HI' : increasing (b :: bounds)) by (inversion HI; assumption). assert (Hab : (a <= b)%num) by (apply StronglySorted_inv in HI; destruct HI as [_ HF]; inversion HF; assumption).
    destruct (IH b HI') as (rs & kb & kc & E & Sb & Sc & Lb & Lc & Hle & HC & HL & HR). destruct (HLap (Some a) (Some b)) as (ka & kb' & Ls & E1 & Sa & Sb' & L1 & La & Lb' & R1).
    assert (kb' = kb) by (apply (start_unique ts b kb' kb (times_sorted _)); assumption). subst kb'. assert (Hka : ka <= kb) by (apply (start_mono ts a b ka kb (times_sorted _)); assumption).
    exists ((ka, kb, Ls) :: rs), ka, kc. rewrite slices_of_cons. cbn [map]. unfold slice_laplacians at 1. cbn [fst snd]. rewrite E1, E. cbn [concat contiguous snd map].
    assert (Elast : last (b :: bounds) a = last bounds b) by apply last_first.
    rewrite Elast. split; [reflexivity|]. split; [exact Sa|]. split; [exact Sc|]. split; [exact La|]. split; [exact Lc|]. split; [lia|]. split; [auto|]. rewrite app_length. split; [lia|]. apply right_app; [exact R1|]. replace (ka + length Ls) with kb by lia. exact HR.
Qed.
End Slices.

(** ** Transition matrices of consecutive slices *)
Lemma chain_app n l l' : eqm n (chain n (l ++ l')) (mmul n (chain n l) (chain n l')).
Proof.
  induction l as [|A l IH]; cbn; [apply eqm_sym, mmul_ident_l|]. eapply eqm_trans; [apply mmul_ext; [apply eqm_refl|exact IH]|]. apply eqm_sym, mmul_assoc.
Qed.
Lemma chain_same n l l' : same_matrices n l l' -> eqm n (chain n l) (chain n l').
Proof.
  revert l'. induction l as [|A l IH]; intros [|B l'] [HL H]; try discriminate HL; [apply eqm_refl|]. cbn. apply mmul_ext; [exact (H 0 ltac:(cbn; lia))|]. apply IH. split; [now injection HL|]. intros k Hk. exact (H (S k) ltac:(cbn; lia)).
Qed.
Lemma zero_tol n Z A : zeroing n Z -> stochastic n A -> eqm n (Z 0%num A) A.
Proof.
  intros HZ [Hn _] i j Hi Hj. destruct (HZ 0%num A (Qcle_refl _) i j Hi Hj) as [H|(H & a & b & _ & _ & Hle)]; [exact H|]. rewrite H. apply Qcle_antisym; [now apply Hn|]. replace (0 * qabs (A a b))%num with 0%num in Hle by ring. exact Hle.
Qed.
Lemma clean_zero n Z A : zeroing n Z -> stochastic n A -> eqm n (clean n Z (Some 0%num) A) A.
Proof. intros HZ HA. cbn [clean]. eapply eqm_trans; [apply rownorm_ext, zero_tol; assumption|]. now apply rownorm_stochastic. Qed.
Lemma products_zero n Z T pre l : zeroing n Z -> eqm n T (chain n pre) -> (forall A, In A (pre ++ l) -> stochastic n A) ->
  forall k, k < length l -> eqm n (nth k (products n Z (Some 0%num) T l) ident) (chain n (pre ++ firstn (S k) l)).
Proof.
  intros HZ. revert T pre. induction l as [|A l IH]; intros T pre HT HS k Hk; [cbn in Hk; lia|].
  assert (HA : stochastic n A) by (apply HS, in_or_app; right; now left).
  assert (HP : stochastic n (chain n pre)) by (apply stochastic_chain; intros B HB; apply HS, in_or_app; now left).
  assert (H1 : eqm n (mmul n T (clean n Z (Some 0%num) A)) (mmul n (chain n pre) A)) by (apply mmul_ext; [exact HT|now apply clean_zero]).
  assert (H2 : stochastic n (mmul n T (clean n Z (Some 0%num) A))) by (apply (stochastic_ext n (mmul n (chain n pre) A)); [now apply eqm_sym|now apply stochastic_mmul]).
  assert (HT1 : eqm n (rownorm n (trim Z (Some 0%num) (mmul n T (clean n Z (Some 0%num) A)))) (chain n (pre ++ [A]))).
  { eapply eqm_trans; [|apply eqm_sym, chain_snoc]. cbn [trim]. eapply eqm_trans; [apply rownorm_ext, zero_tol; assumption|]. eapply eqm_trans; [apply rownorm_stochastic, H2|exact H1]. }
  destruct k as [|k]; [exact HT1|]. change (firstn (S (S k)) (A :: l)) with (A :: firstn (S k) l). cbn [products nth].
  replace (pre ++ A :: firstn (S k) l) with ((pre ++ [A]) ++ firstn (S k) l) by (now rewrite <- app_assoc).
  apply IH; [exact HT1| |cbn in Hk; lia]. intros B HB. apply HS. rewrite <- app_assoc in HB. exact HB.
Qed.
Lemma last_zero n Z A r : zeroing n Z -> (forall B, In B (A :: r) -> stochastic n B) ->
  eqm n (last (clean n Z (Some 0%num) A :: products n Z (Some 0%num) (clean n Z (Some 0%num) A) r) ident) (chain n (A :: r)).
Proof.
  intros HZ HS. assert (HA : stochastic n A) by (apply HS; now left). destruct r as [|B r].
  - cbn [products last]. eapply eqm_trans; [now apply clean_zero|]. cbn. apply eqm_sym, mmul_ident_r.
  - rewrite last_nth. cbn [length]. rewrite products_length. rewrite Nat.sub_1_r. cbn [pred length]. change (nth (S (length r)) (clean n Z (Some 0%num) A :: products n Z (Some 0%num) (clean n Z (Some 0%num) A) (B :: r)) ident) with (nth (length r) (products n Z (Some 0%num) (clean n Z (Some 0%num) A) (B :: r)) ident).
    eapply eqm_trans; [apply (products_zero n Z _ [A]); [exact HZ| |exact HS|cbn; lia]|].
    + eapply eqm_trans; [now apply clean_zero|]. cbn. apply eqm_sym, mmul_ident_r.
    + rewrite firstn_all2 by (cbn; lia). apply eqm_refl.
Qed.
Lemma chain_in_order n rv As ls : Forall2 (fun A l => eqm n A (chain n (in_order rv l))) As ls -> eqm n (chain n (in_order rv As)) (chain n (in_order rv (concat ls))).
Proof.
  intros H. induction H as [|A l As ls HA H IH]; [destruct rv; apply eqm_refl|]. destruct rv; cbn [in_order concat rev] in *.
  - rewrite rev_app_distr. eapply eqm_trans; [apply chain_app|]. eapply eqm_trans; [|apply eqm_sym, chain_app]. apply mmul_ext; [exact IH|]. eapply eqm_trans; [|exact HA]. cbn. apply mmul_ident_r.
  - eapply eqm_trans; [|apply eqm_sym, chain_app]. cbn. apply mmul_ext; assumption.
Qed.
Lemma map_seq_from {A} (f : nat -> A) a m : map f (seq a m) = map (fun k => f (a + k)) (seq 0 m).
Proof.
  revert a. induction m as [|m IH]; intros a; [reflexivity|]. cbn [seq map]. rewrite Nat.add_0_r, (IH (S a)), <- seq_shift, map_map. f_equal. apply map_ext. intros k. f_equal. lia.
Qed.
Lemma nth_map_seq {A} (f : nat -> A) m k d : k < m -> nth k (map f (seq 0 m)) d = f k.
Proof.
  intros H. rewrite (nth_indep _ d (f 0)) by (now rewrite map_length, seq_length). rewrite map_nth, seq_nth by exact H. reflexivity.
Qed.
Section Transitions.
Context (N : net) (g : list grid_row) (E Z : num -> mat -> mat) (lamda : num).
Notation ts := (times (rows N)).
Notation n := (num_nodes_of N).
Context (HOk : laplacians_ok n ts (compute_laplacians N g)) (HE : expm_ok n E) (HZ : zeroing n Z) (Hx : (0 <= lamda)%num).
(** the matrices between events of the steps from ka on *)
Definition step_matrices (ka : nat) (Ls : list mat) : list mat := map (fun k => E (step_length ts false ka k * lamda)%num (nth k Ls ident)) (seq 0 (length Ls)).
Lemma step_matrices_app ka l l' : step_matrices ka (l ++ l') = step_matrices ka l ++ step_matrices (ka + length l) l'.
Proof using.
  unfold step_matrices. rewrite app_length, seq_app, map_app. f_equal.
  - apply map_ext_in. intros k Hk. apply in_seq in Hk. now rewrite app_nth1 by lia.
  - rewrite map_seq_from. apply map_ext. intros k. change (0 + length l + k) with (length l + k). rewrite app_nth2 by lia. replace (length l + k - length l) with k by lia. replace (step_length ts false ka (length l + k)) with (step_length ts false (ka + length l) k); [reflexivity|]. unfold step_length. now rewrite Nat.add_assoc.
Qed.
Lemma step_matrices_same ka l l' : by_entries n E -> same_matrices n l l' -> same_matrices n (step_matrices ka l) (step_matrices ka l').
Proof using.
  intros HB [HL H]. unfold step_matrices. split; [rewrite !map_length, !seq_length; exact HL|]. rewrite map_length, seq_length. intros k Hk. rewrite <- HL.
  rewrite !nth_map_seq by lia. apply HB. now apply H.
Qed.
Lemma slice_transition_ok sparse force rv a b : exists ka kb Ls A, compute_laplacians N g (Some a) (Some b) = Some (ka, kb, Ls) /\
  slice_transition N g E Z lamda 0 sparse force rv (a, b) = Some (One A) /\ eqm n A (chain n (in_order rv (step_matrices ka Ls))) /\ stochastic n A.
Proof using HOk HE HZ Hx.
  destruct (HOk (Some a) (Some b)) as (ka & kb & Ls & EL & Hkb & HLs & HW). exists ka, kb, Ls.
  destruct (inter_matrices_spec n E ts false lamda ka kb Ls Hkb HLs) as (l & EI & _). pose proof (inter_per_step n E ts false lamda ka kb Ls l HE Hkb HLs EI) as HP.
  destruct (per_step_stochastic n ka kb _ l HP) as [Hne Hst].
  { intros k Hk. apply (proj1 HE); [|now apply HW]. apply qmult_nonneg; [|exact Hx]. apply sorted_step; [apply times_sorted|lia]. }
  assert (HC : eqm n (chain n (in_order rv l)) (chain n (in_order rv (step_matrices ka Ls)))).
  { destruct HP as [H1 H2]. destruct (Nat.le_gt_cases kb ka) as [Hle|Hlt].
    - specialize (H1 Hle). destruct Ls; [|cbn in HLs; lia]. inversion H1 as [|B C l1 l2 HA Hl]; subst. inversion Hl; subst. replace (in_order rv [B]) with [B] by (destruct rv; reflexivity). cbn. replace (in_order rv (step_matrices ka [])) with (@nil mat) by (destruct rv; reflexivity). cbn. eapply eqm_trans; [apply mmul_ident_r|]. replace (in_order rv (@nil mat)) with (@nil mat) by (destruct rv; reflexivity). exact HA.
    - destruct (H2 Hlt) as [HL Hk]. apply chain_same. assert (HS : same_matrices n l (step_matrices ka Ls)).
      { split; [unfold step_matrices; rewrite map_length, seq_length; lia|]. intros k Hkl. unfold step_matrices. rewrite nth_map_seq by lia. apply Hk. lia. }
      destruct rv; [|exact HS]. destruct HS as [HS1 HS2]. split; [cbn; rewrite !rev_length; exact HS1|]. cbn [in_order]. rewrite rev_length. intros k Hkl. rewrite !rev_nth by lia. rewrite <- HS1. apply HS2. lia. }
  set (st1 := set_inter (set_lap tn0 (Some (ka, kb, Ls))) [(lamda, (sparse, l))]).
  assert (Hl' : forall B, In B (in_order rv l) -> stochastic n B). { intros B HB. apply Hst. unfold in_order in HB. destruct rv; [now apply in_rev|exact HB]. }
  unfold slice_transition, compute_lap. cbn [fst snd]. rewrite EL. unfold compute_inter, ensure_lap. cbn [t_lap set_lap the_lamda t_inter tn0 aget]. rewrite EI. change (aset qeqb [] lamda (sparse, l)) with [(lamda, (sparse, l))]. fold tn0. fold st1.
  unfold compute_trans. assert (HI : aget qeqb (t_inter st1) lamda = Some (sparse, l)). { unfold st1. cbn. now destruct (qeqb_spec lamda lamda). } rewrite HI. change (aget qeqb (t_T st1) lamda) with (@None tval). cbv iota. fold (in_order rv l).
  destruct (in_order rv l) as [|A r] eqn:EO. { exfalso. apply Hne. unfold in_order in EO. destruct rv; [|exact EO]. apply (f_equal (@rev mat)) in EO. now rewrite rev_involutive in EO. }
  cbv zeta. cbn [t_T set_T set_inter]. eexists. split; [reflexivity|]. rewrite get_same. split; [reflexivity|]. pose proof (last_zero n Z A r HZ Hl') as HA.
  split; [eapply eqm_trans; [exact HA|exact HC]|]. apply (stochastic_ext n (chain n (A :: r))); [now apply eqm_sym|]. now apply stochastic_chain.
Qed.
End Transitions.
