(** The values computed by the information measures. *)
From Verif Require Import Base PartitionModel PartitionProofs InfoModel InfoSpec InfoProofs.
From Coq Require Import Lra.
Local Open Scope R_scope.

(** * The double sum *)
Definition vi_term (ni nj nij : nat) : R :=
  if (0 <? nij)%nat then - (INR nij * log2 ((INR nij * INR nij) / (INR ni * INR nj))) else 0.
Lemma vi_step_term ni nj nij v : vi_step ni nj nij v = v + vi_term ni nj nij.
Proof. unfold vi_step, vi_term. destruct (0 <? nij)%nat; lra. Qed.
Definition vi_pair (c1 c2 : list nat) : R := vi_term (length c1) (length c2) (inter_len c1 c2).
Definition vi_sum (P Q : list (list nat)) : R := sumR (fun c1 => sumR (vi_pair c1) Q) P.
(** value in terms of the conditional entropies *)
Definition vi_val (V : list nat) (P Q : list (list nat)) : R := Hc V (rel P) (rel Q) + Hc V (rel Q) (rel P).

Lemma inter_ind c1 c2 : INR (inter_len c1 c2) = sumR (fun x => ind (memb x c2)) c1.
Proof. apply count_ind. Qed.
Lemma inter_pos c1 c2 x : In x c1 -> In x c2 -> (0 < inter_len c1 c2)%nat.
Proof.
  intros H1 H2. unfold inter_len. assert (H : In x (filter (fun x => memb x c2) c1)) by (apply filter_In; rewrite memb_In; auto).
  destruct (filter _ c1); [destruct H|simpl; lia].
Qed.
Lemma inter_none c1 c2 x : inter_len c1 c2 = 0%nat -> In x c1 -> memb x c2 = false.
Proof.
  intros H Hx. apply memb_false. intros H2. pose proof (inter_pos c1 c2 x Hx H2). lia.
Qed.
(** a sum over pairs of clusters, weighted by the intersection, is a sum over nodes *)
Lemma pair_sum V P Q (h : list nat -> list nat -> R) (g : list nat -> list nat -> R) :
  covers V P -> covers V Q ->
  (forall c1 c2, g c1 c2 = if (0 <? inter_len c1 c2)%nat then INR (inter_len c1 c2) * h c1 c2 else 0) ->
  sumR (fun c1 => sumR (g c1) Q) P = sumR (fun x => h (clu P x) (clu Q x)) V.
Proof.
  intros HP HQ Hg. rewrite (sum_nodes V P HP). apply sumR_ext. intros c1 Hc1.
  rewrite (sumR_ext _ (fun c2 => sumR (fun x => ind (memb x c2) * h c1 c2) c1)).
  - rewrite sumR_swap. apply sumR_ext. intros x Hx.
    assert (HV : In x V) by (apply (cover_in V P HP), in_concat; eauto).
    rewrite (sum_ind V Q HQ (h c1) x HV). now rewrite (clu_eq P x c1) by (try assumption; apply (cover_nodup V P HP)).
  - intros c2 _. rewrite Hg, sumR_scal_r, <- inter_ind. destruct (Nat.ltb_spec 0 (inter_len c1 c2)); [reflexivity|].
    replace (inter_len c1 c2) with 0%nat by lia. simpl. lra.
Qed.
Lemma vi_sum_val V P Q : covers V P -> covers V Q -> vi_sum P Q = vi_val V P Q / ln 2.
Proof.
  intros HP HQ. unfold vi_sum.
  rewrite (pair_sum V P Q (fun c1 c2 => - log2 ((INR (inter_len c1 c2) * INR (inter_len c1 c2)) / (INR (length c1) * INR (length c2))))) by
    (try assumption; intros; unfold vi_pair, vi_term; destruct (0 <? inter_len c1 c2)%nat; lra).
  unfold vi_val, Hc. rewrite <- sumR_add. unfold Rdiv at 2. rewrite <- sumR_scal_r. apply sumR_ext. intros x Hx.
  rewrite (inter_cnt V P Q), (clu_cnt V P), (clu_cnt V Q) by assumption.
  rewrite (meet_sym V (rel Q) (rel P)).
  pose proof (rel_equiv V P HP) as EP. pose proof (rel_equiv V Q HQ) as EQ. pose proof (meet_equiv V _ _ EP EQ) as EM.
  pose proof (cnt_pos V _ x EP Hx). pose proof (cnt_pos V _ x EQ Hx). pose proof (cnt_pos V _ x EM Hx).
  unfold log2. rewrite !ln_div, !ln_mult by (try assumption; now apply Rmult_lt_0_compat). pose proof ln2_pos. field. lra.
Qed.

(** * The early exit *)
Lemma inter_app c1 c2 c3 : (forall x, In x c2 -> ~ In x c3) ->
  inter_len c1 (c2 ++ c3) = (inter_len c1 c2 + inter_len c1 c3)%nat.
Proof.
  intros H. unfold inter_len. induction c1 as [|x c1 IH]; [reflexivity|]. cbn [filter].
  assert (E : memb x (c2 ++ c3) = memb x c2 || memb x c3).
  { apply eq_true_iff_eq. rewrite orb_true_iff, !memb_In, in_app_iff. tauto. }
  rewrite E. destruct (memb x c2) eqn:E2, (memb x c3) eqn:E3; cbn [orb length]; try lia.
  exfalso. apply memb_In in E2, E3. now apply (H x).
Qed.
Lemma inter_le c1 c2 : (inter_len c1 c2 <= length c1)%nat.
Proof. unfold inter_len. induction c1 as [|x c IH]; [apply le_n|]. cbn [filter]. destruct (memb x c2); cbn [length]; lia. Qed.
Lemma nvi_inner_spec c1 Q : forall n v, NoDup (concat Q) -> (n + inter_len c1 (concat Q) <= length c1)%nat ->
  nvi_inner c1 Q n v = v + sumR (vi_pair c1) Q.
Proof.
  induction Q as [|c2 Q IH]; intros n v Hn Hle; [simpl; lra|].
  apply NoDup_concat_cons in Hn. destruct Hn as (_ & Hn & Hdis). cbn [concat] in Hle. rewrite inter_app in Hle by exact Hdis.
  cbn [nvi_inner]. rewrite vi_step_term, sumR_cons. fold (vi_pair c1 c2).
  destruct (Nat.leb_spec (length c1) (n + inter_len c1 c2)) as [H|H].
  - rewrite (sumR_ext _ (fun _ => 0)); [rewrite sumR_0; lra|]. intros c Hc. unfold vi_pair, vi_term.
    replace (inter_len c1 c) with 0%nat; [reflexivity|]. symmetry.
    assert (E : inter_len c1 (concat Q) = 0%nat) by lia.
    destruct (inter_len c1 c) eqn:F; [reflexivity|exfalso].
    unfold inter_len in F. destruct (filter (fun x => memb x c) c1) as [|y l] eqn:G; [discriminate|].
    assert (Hy : In y (filter (fun x => memb x c) c1)) by (rewrite G; now left). apply filter_In in Hy.
    rewrite memb_In in Hy. pose proof (inter_none c1 (concat Q) y E (proj1 Hy)) as N. apply memb_false in N.
    apply N, in_concat. exists c. tauto.
  - rewrite IH by (try assumption; lia). lra.
Qed.
Lemma cython_nvi_spec P Q N : NoDup (concat Q) -> (1 < N)%nat ->
  cython_nvi P Q N = Some (vi_sum P Q / (INR N * log2 (INR N))).
Proof.
  intros Hn HN. unfold cython_nvi. destruct (Nat.leb_spec N 1); [lia|]. do 2 f_equal.
  rewrite (sumR_fold _ (fun c1 => sumR (vi_pair c1) Q)); [unfold vi_sum; lra|].
  intros s c. apply nvi_inner_spec; [exact Hn|]. pose proof (inter_le c (concat Q)). lia.
Qed.

(** * norm_var_information on lists *)
Lemma joined_perm P Q : Permutation P Q -> same_clustering P Q.
Proof.
  intros H x y. split; intros (c & Hc & Hx); exists c; (split; [|exact Hx]).
  - now apply (Permutation_in c H).
  - now apply (Permutation_in c (Permutation_sym H)).
Qed.
Lemma insert_cl_perm c l : Permutation (insert_cl c l) (c :: l).
Proof.
  induction l as [|d l IH]; [reflexivity|]. cbn [insert_cl]. destruct (set_min c <=? set_min d)%nat; [reflexivity|].
  rewrite IH. apply perm_swap.
Qed.
Lemma sort_by_min_spec P : ~ In [] P -> exists s, sort_by_min P = Some s /\ Permutation s P.
Proof.
  intros H. unfold sort_by_min. replace (forallb nonempty P) with true.
  - eexists. split; [reflexivity|]. induction P as [|c P IH]; [constructor|]. cbn [fold_right].
    rewrite insert_cl_perm. constructor. apply IH. intros F. apply H. now right.
  - symmetry. apply forallb_forall. intros c Hc. destruct c; [contradiction|reflexivity].
Qed.
Lemma concat_perm (P Q : list (list nat)) : Permutation P Q -> Permutation (concat P) (concat Q).
Proof.
  induction 1; cbn [concat]; [constructor|now apply Permutation_app_head| |etransitivity; eassumption].
  rewrite !app_assoc. apply Permutation_app_tail, Permutation_app_comm.
Qed.
Lemma covers_perm V P Q : Permutation Q P -> covers V P -> covers V Q.
Proof. intros H [H1 H2]. split; [exact H1|]. now rewrite (concat_perm _ _ H). Qed.
Lemma set_eqb_spec a b : set_eqb a b = true <-> (forall x, In x a <-> In x b).
Proof.
  unfold set_eqb. rewrite andb_true_iff, !forallb_forall. split.
  - intros [H1 H2] x. split; intros H; [apply H1 in H|apply H2 in H]; now apply memb_In.
  - intros H. split; intros x Hx; apply memb_In; now apply H.
Qed.
Lemma sets_eqb_same P : forall Q, sets_eqb P Q = true -> same_clustering P Q.
Proof.
  induction P as [|a P IH]; destruct Q as [|b Q]; cbn [sets_eqb]; try discriminate; intros H; [intros x y; tauto|].
  apply andb_prop in H. destruct H as [H1 H2]. rewrite set_eqb_spec in H1. specialize (IH Q H2).
  intros x y. split.
  - intros (c & [<-|Hc] & Hx & Hy); [exists b; rewrite <- !H1; split; [now left|tauto]|].
    destruct (proj1 (IH x y)) as (d & Hd & T); [exists c; tauto|]. exists d. split; [now right|exact T].
  - intros (c & [<-|Hc] & Hx & Hy); [exists a; rewrite !H1; split; [now left|tauto]|].
    destruct (proj2 (IH x y)) as (d & Hd & T); [exists c; tauto|]. exists d. split; [now right|exact T].
Qed.
Lemma total_len_concat P : total_len P = length (concat P).
Proof.
  unfold total_len. enough (H : forall s, fold_left (fun s (c : list nat) => (s + length c)%nat) P s = (s + length (concat P))%nat) by apply H.
  induction P as [|c P IH]; intros s; cbn [fold_left concat]; [simpl; lia|]. rewrite IH, app_length. lia.
Qed.
Lemma cover_total V P : covers V P -> total_len P = length V.
Proof. intros H. rewrite total_len_concat. apply Permutation_length, H. Qed.
Lemma nonempty_count (P : list (list nat)) : ~ In [] P -> (length P <= length (concat P))%nat.
Proof.
  induction P as [|c P IH]; intros H; [apply le_n|]. cbn [concat]. rewrite app_length. cbn [length].
  assert (~ In [] P) by (intros F; apply H; now right). specialize (IH H0).
  destruct c; [exfalso; apply H; now left|cbn [length]; lia].
Qed.
Lemma all_single (P : list (list nat)) : ~ In [] P -> length P = length (concat P) -> forall c, In c P -> length c = 1%nat.
Proof.
  induction P as [|d P IH]; intros H E c Hc; [destruct Hc|]. cbn [concat] in E. rewrite app_length in E. cbn [length] in E.
  assert (HP : ~ In [] P) by (intros F; apply H; now right). pose proof (nonempty_count P HP).
  destruct d as [|x d]; [exfalso; apply H; now left|]. cbn [length] in E.
  destruct Hc as [<-|Hc]; [cbn [length]; lia|]. apply IH; try assumption. lia.
Qed.
Lemma vi_same V P Q : covers V P -> covers V Q -> same_clustering P Q -> vi_val V P Q = 0.
Proof.
  intros HP HQ H. pose proof (proj1 (same_rel V P Q HP HQ) H) as E.
  unfold vi_val. rewrite (proj2 (Hc_zero V (rel P) (rel Q) (rel_equiv V P HP) (rel_equiv V Q HQ))),
    (proj2 (Hc_zero V (rel Q) (rel P) (rel_equiv V Q HQ) (rel_equiv V P HP))); [lra| |].
  - intros x y Hx Hy F. now rewrite <- E.
  - intros x y Hx Hy F. now rewrite E.
Qed.
Lemma same_sym P Q : same_clustering P Q -> same_clustering Q P.
Proof. intros H x y. symmetry. apply H. Qed.
Lemma same_trans P Q S : same_clustering P Q -> same_clustering Q S -> same_clustering P S.
Proof. intros H1 H2 x y. rewrite (H1 x y). apply H2. Qed.
Lemma Hc_ext V r s r' s' : (forall x y, In x V -> In y V -> r x y = r' x y) -> (forall x y, In x V -> In y V -> s x y = s' x y) ->
  Hc V r s = Hc V r' s'.
Proof.
  intros H1 H2. unfold Hc. apply sumR_ext. intros x Hx. rewrite (cnt_ext V s s') by auto.
  rewrite (cnt_ext V (meet r s) (meet r' s')); [reflexivity|]. intros y Hy. unfold meet. now rewrite H1, H2.
Qed.
Lemma vi_val_same V P Q P' Q' : covers V P -> covers V Q -> covers V P' -> covers V Q' ->
  same_clustering P P' -> same_clustering Q Q' -> vi_val V P Q = vi_val V P' Q'.
Proof.
  intros HP HQ HP' HQ' H1 H2. pose proof (proj1 (same_rel V P P' HP HP') H1) as E1.
  pose proof (proj1 (same_rel V Q Q' HQ HQ') H2) as E2. unfold vi_val. f_equal; now apply Hc_ext.
Qed.
Definition nvi_val (V : list nat) (P Q : list (list nat)) : R :=
  vi_val V P Q / (INR (length V) * ln (INR (length V))).
Lemma norm_pos (V : list nat) : (2 <= length V)%nat -> 0 < INR (length V) /\ 0 < ln (INR (length V)).
Proof.
  intros H. assert (H2 : INR 2 <= INR (length V)) by now apply le_INR. simpl in H2. split; [lra|].
  rewrite <- ln_1. apply ln_increasing; lra.
Qed.
Lemma singles_same V P Q : partition_of V P -> partition_of V Q -> length P = length V -> length Q = length V ->
  same_clustering P Q.
Proof.
  intros HP HQ LP LQ. pose proof (partition_covers _ _ HP) as CP. pose proof (partition_covers _ _ HQ) as CQ.
  assert (S : forall R, partition_of V R -> length R = length V -> forall x y, joined R x y <-> x = y /\ In x V).
  { intros R HR LR x y. pose proof (partition_covers _ _ HR) as CR. split.
    - intros T. pose proof (joined_in V R CR x y T) as [Hx _]. split; [|exact Hx]. destruct T as (c & Hc & H1 & H2).
      pose proof (all_single R (proj2 (proj2 HR))) as F. rewrite (Permutation_length (proj1 (proj2 HR))) in F.
      specialize (F LR c Hc). destruct c as [|a [|b c]]; cbn [length] in F; try lia.
      destruct H1 as [<-|[]], H2 as [<-|[]]. reflexivity.
    - intros [<- Hx]. destruct (clu_in V R CR x Hx). exists (clu R x). tauto. }
  intros x y. now rewrite (S P HP LP), (S Q HQ LQ).
Qed.
Lemma nvi_lists_spec V P Q N : partition_of V P -> partition_of V Q -> (2 <= length V)%nat ->
  (N = None \/ N = Some (length V)) -> nvi_lists P Q N = Some (nvi_val V P Q).
Proof.
  intros HP HQ HV HN. pose proof (partition_covers _ _ HP) as CP. pose proof (partition_covers _ _ HQ) as CQ.
  destruct (norm_pos V HV) as [N1 N2]. unfold nvi_lists.
  assert (NE : forall R, partition_of V R -> nonempty R = true).
  { intros R (_ & HR & _). destruct R; [|reflexivity]. apply Permutation_length in HR. simpl in HR. lia. }
  rewrite (NE P HP), (NE Q HQ). cbn [andb].
  replace (match N with Some n => n | None => total_len P end) with (length V)
    by (destruct HN as [-> | ->]; [now rewrite (cover_total V P CP)|reflexivity]).
  destruct (sort_by_min_spec P (proj2 (proj2 HP))) as (s1 & E1 & P1). destruct (sort_by_min_spec Q (proj2 (proj2 HQ))) as (s2 & E2 & P2).
  pose proof (covers_perm V P s1 P1 CP) as C1. pose proof (covers_perm V Q s2 P2 CQ) as C2.
  destruct ((length P =? length Q)%nat && (length Q =? length V)%nat) eqn:T.
  - apply andb_prop in T. destruct T as [T1 T2]. apply Nat.eqb_eq in T1, T2.
    f_equal. unfold nvi_val. rewrite vi_same by (try assumption; apply (singles_same V); try assumption; congruence). unfold Rdiv. lra.
  - rewrite E1, E2. destruct ((length P =? length Q)%nat && sets_eqb s1 s2) eqn:U.
    + apply andb_prop in U. destruct U as [_ U]. apply sets_eqb_same in U.
      f_equal. unfold nvi_val. rewrite vi_same; [unfold Rdiv; lra|assumption|assumption|].
      eapply same_trans; [apply same_sym, joined_perm, P1|]. eapply same_trans; [exact U|]. now apply joined_perm.
    + rewrite cython_nvi_spec by (try lia; apply (cover_nodup V s2 C2)). f_equal. unfold nvi_val.
      rewrite (vi_sum_val V) by assumption.
      rewrite (vi_val_same V s1 s2 P Q) by (try assumption; now apply joined_perm).
      unfold log2. pose proof ln2_pos. field. lra.
Qed.

(** * The metric *)
Lemma vi_val_sym V P Q : vi_val V P Q = vi_val V Q P.
Proof. unfold vi_val. lra. Qed.
Lemma nvi_metric V : (2 <= length V)%nat -> forall P Q S, covers V P -> covers V Q -> covers V S ->
  nvi_val V P Q = nvi_val V Q P /\ 0 <= nvi_val V P Q <= 1 /\
  (nvi_val V P Q = 0 <-> same_clustering P Q) /\
  nvi_val V P S <= nvi_val V P Q + nvi_val V Q S.
Proof.
  intros HV P Q S HP HQ HS. destruct (norm_pos V HV) as [N1 N2].
  pose proof (Rmult_lt_0_compat _ _ N1 N2) as N3.
  pose proof (rel_equiv V P HP) as EP. pose proof (rel_equiv V Q HQ) as EQ. pose proof (rel_equiv V S HS) as ES.
  pose proof (Hc_nonneg V _ _ EP EQ) as H1. pose proof (Hc_nonneg V _ _ EQ EP) as H2.
  assert (I : 0 < / (INR (length V) * ln (INR (length V)))) by now apply Rinv_0_lt_compat.
  unfold nvi_val. split; [now rewrite vi_val_sym|]. split; [|split].
  - split.
    + apply Rmult_le_pos; [unfold vi_val; lra|lra].
    + apply Rmult_le_reg_r with (INR (length V) * ln (INR (length V))); [assumption|].
      unfold Rdiv. rewrite Rmult_assoc, Rinv_l by lra. pose proof (Hc_upper V _ _ EP EQ). unfold vi_val. lra.
  - split.
    + intros H. assert (E : vi_val V P Q = 0).
      { apply Rmult_eq_reg_r with (/ (INR (length V) * ln (INR (length V)))); [|lra]. rewrite Rmult_0_l. exact H. }
      unfold vi_val in E. assert (E1 : Hc V (rel P) (rel Q) = 0) by lra. assert (E2 : Hc V (rel Q) (rel P) = 0) by lra.
      apply (same_rel V P Q HP HQ). intros x y Hx Hy. apply eq_true_iff_eq.
      split; intros F; [apply (proj1 (Hc_zero V _ _ EQ EP) E2)|apply (proj1 (Hc_zero V _ _ EP EQ) E1)]; assumption.
    + intros H. rewrite vi_same by assumption. unfold Rdiv. lra.
  - unfold Rdiv. rewrite <- Rmult_plus_distr_r. apply Rmult_le_compat_r; [lra|].
    pose proof (Hc_triangle V _ _ _ EP EQ ES). pose proof (Hc_triangle V _ _ _ ES EQ EP). unfold vi_val. lra.
Qed.
