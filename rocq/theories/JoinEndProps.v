(** C199: merging clusters at the end of a search ([Clustering.find_louvain_clustering], network_clustering.py l.1349-1434). *)
From Verif Require Import Base PartitionModel PartitionSpec PartitionProofs LouvainModel LouvainSpec LouvainProofs LouvainProps PartitionProps LocalProps MultiProofs MatProofs SparseLouvainProofs.

(** ** Vocabulary *)
(** q is p with the cluster of x and the cluster of y made one *)
Definition merge_of (p : partition) (x y : nat) (q : partition) : Prop := valid q /\ num_nodes q = num_nodes p /\
  forall i j, together q i j <-> together p i j \/ (together p x i /\ together p y j) \/ (together p y i /\ together p x j).
(** some flow goes from a member of one cluster to a member of the other *)
Definition flow_between (T : mat) (p : partition) (x y : nat) : Prop :=
  exists i j, together p x i /\ together p y j /\ ((0 < T i j)%num \/ (0 < T j i)%num).
(** the covariance of a walk that starts from p1, moves with T and is compared with p2 *)
Definition walk_covariance (p1 p2 : nat -> num) (T : mat) : mat := fun i j => (p1 i * T i j - p1 i * p2 j)%num.
(** one step of a walk: T is a transition matrix, p1 and p2 are distributions and p2 follows p1 *)
Definition walk_step (n : nat) (p1 p2 : nat -> num) (T : mat) : Prop :=
  (forall i j, i < n -> j < n -> (0 <= T i j)%num) /\ row_stochastic n T /\ (forall i, i < n -> (0 <= p1 i)%num) /\ sumN n p1 = 1%num /\
  forall j, j < n -> p2 j = sumN n (fun i => (p1 i * T i j)%num).

(** stopped by the threshold and not by the cap, the search leaves no two clusters that gain more than the threshold by being one *)
Definition C199_statement : Prop := forall setord orders p1 p2 T thr nmeta nsub n q k,
  is_iteration_order setord -> shuffles orders -> 0 < n -> walk_step n p1 p2 T -> (0 <= thr)%num -> (thr < 1)%num -> 2 <= nsub ->
  find_louvain setord orders T (compute_S p1 p2 T) thr nmeta nsub (part_default n) = LDone q k -> k <= nmeta ->
  forall x y r, x < n -> y < n -> ~ together q x y -> merge_of q x y r -> (gain_of (walk_covariance p1 p2 T) q r <= thr)%num.

(** * The last level *)
Lemma valid_self p x : valid p -> x < num_nodes p -> together p x x.
Proof. intros Hv Hx. destruct (valid_node_dget p x Hv Hx) as [d Hd]. exists d. split; now apply Hv. Qed.
Lemma together_lt p x y : valid p -> together p x y -> x < num_nodes p /\ y < num_nodes p.
Proof. intros Hv (c & (l & Hl & Hx) & (l' & Hl' & Hy)). assert (Hp := valid_perm p Hv). split; apply seq_In_iff, (Permutation_in _ Hp), in_concat; eauto using nth_error_In. Qed.
Lemma together_trans p x y z : valid p -> together p x y -> together p y z -> together p x z.
Proof. intros Hv (a & H1 & H2) (b & H3 & H4). assert (a = b) as <- by (apply Hv in H2, H3; congruence). exists a. now split. Qed.
Lemma default_self n a b : together (part_default n) a b <-> a = b /\ a < n.
Proof.
  split.
  - intros H. split; [exact (default_together n a b H)|]. exact (proj1 (together_lt _ _ _ (default_valid n) H)).
  - intros [<- Ha]. apply valid_self; [apply default_valid|exact Ha].
Qed.

Section Ends.
Variables (setord : list nat -> list nat) (orders : nat -> nat -> nat -> list nat) (T S0 : mat) (thr : num) (nmeta nsub n : nat).
Hypotheses (Hso : is_iteration_order setord) (Hsh : shuffles orders) (HT : has_out_flow n T) (Hpos : 0 < n) (H0 : (0 <= thr)%num) (Hn2 : 2 <= nsub).
(** what a level starts from *)
Definition level (p : partition) (mT mS : mat) : Prop := valid p /\ no_empty (cluster_list p) /\ num_nodes p = n /\
  (forall a b, a < length (cluster_list p) -> b < length (cluster_list p) -> mS a b = aggregate S0 p a b) /\
  (forall a b x y, in_cluster (cluster_list p) a x -> in_cluster (cluster_list p) b y -> (0 < T x y)%num -> (0 < mT a b)%num).

Lemma aggregate_pos_entry p a b x y : valid p -> num_nodes p = n -> in_cluster (cluster_list p) a x -> in_cluster (cluster_list p) b y -> (0 < T x y)%num ->
  (0 < aggregate T p a b)%num.
Proof.
  intros Hv Hn Ha Hb HL. unfold aggregate, block. apply In_nth_in_cluster in Ha, Hb. destruct HT as [Hnn _].
  assert (R : forall c z, In z (nth c (cluster_list p) []) -> z < n).
  { intros c z Hz. apply In_nth_in_cluster in Hz. rewrite <- Hn. apply (together_lt p z z Hv). exists c. now split. }
  apply Qclt_le_trans with (T x y); [exact HL|]. apply Qcle_trans with (sumL (fun j => T x j) (nth b (cluster_list p) [])).
  - apply (sumL_nonneg_term (fun j => T x j)); [|exact Hb]. intros j Hj. apply Hnn; eauto.
  - apply (sumL_nonneg_term (fun i => sumL (fun j => T i j) (nth b (cluster_list p) []))); [|exact Ha]. intros i Hi. apply sumL_nonneg. intros j Hj. apply Hnn; eauto.
Qed.

Lemma meta_loop_ends : forall fuel p mT mS delta nm q k, level p mT mS -> (thr < delta)%num ->
  meta_loop fuel setord orders T S0 thr nmeta nsub p mT mS (part_default (length (cluster_list p))) delta nm false = LDone q k -> k <= nmeta ->
  exists p' mT' mS' mp' d nl lv, level p' mT' mS' /\ (d <= thr)%num /\ updated_partition p' mp' = Some q /\
    let m := length (cluster_list p') in
    louvain_move_nodes setord mS' (neighs_of m mT') (fun i => orders lv i m) thr nsub (part_default m) = MDone mp' d nl.
Proof.
  induction fuel as [|fuel IH]; intros p mT mS delta nm q k Hlev Hd HF Hk; cbn [meta_loop] in HF.
  - destruct (qleb_spec delta thr) as [L|_]; [exfalso; revert L Hd; generalize delta thr; qlra|]. cbn [orb] in HF. destruct (Nat.ltb_spec nmeta nm); cbn [negb] in HF; [|discriminate].
    injection HF as _ <-. lia.
  - destruct (qleb_spec delta thr) as [L|_]; [exfalso; revert L Hd; generalize delta thr; qlra|]. cbn [orb] in HF. destruct (Nat.ltb_spec nmeta nm); cbn [negb] in HF; [injection HF as _ <-; lia|].
    destruct Hlev as (Hv & Hne & Hn & HmS & HmT). set (m := length (cluster_list p)) in *.
    assert (Hvm : valid (part_default m)) by apply default_valid.
    destruct (move_phase_spec setord mS (neighs_of m mT) (fun i => orders (S nm) i m) thr nsub (part_default m) Hso Hvm (neighs_of_range m mT)
      (fun i => shuffles_in_range orders (S nm) m Hsh i)) as (mp' & d & nl & Hmv & Hvmp & Hnm & Hnem & Hdp & Hst & _).
    change (num_nodes (part_default m)) with m in HF. rewrite Hmv in HF. assert (Hp0 : 0 < num_nodes p) by lia.
    destruct (updated_stands_for p mp' Hv Hne Hvmp Hnem) as (p1 & Hu & Hv1 & Hne1 & HN1 & Hsf); [now rewrite Hnm|exact Hp0|]. rewrite Hu in HF.
    assert (Hlev : level p mT mS) by (repeat split; assumption || apply Hv).
    destruct (all_singletons p1 || (nmeta <? S nm) || qleb d thr) eqn:Estop.
    + assert (E : LDone p1 (S nm) = LDone q k). { destruct fuel; cbn [meta_loop] in HF; rewrite orb_true_r in HF; cbn [orb negb] in HF; exact HF. }
      assert (p1 = q) as <- by congruence. assert (S nm = k) as <- by congruence.
      exists p, mT, mS, mp', d, nl, (S nm). split; [exact Hlev|]. split; [|split; [exact Hu|exact Hmv]].
      destruct (qleb_spec d thr) as [L|_]; [exact L|]. rewrite orb_false_r in Estop. destruct (Nat.ltb_spec nmeta (S nm)); [lia|]. rewrite orb_false_r in Estop.
      assert (E1 : forall x y, together p1 x y -> x = y).
      { intros x y (c & (l & Hl & Hx) & (l' & Hl' & Hy)). rewrite Hl in Hl'. injection Hl' as <-. unfold all_singletons in Estop. rewrite forallb_forall in Estop.
        specialize (Estop l (nth_error_In _ _ Hl)). apply Nat.eqb_eq in Estop. destruct l as [|z [|? ?]]; try discriminate. destruct Hx as [<-|[]]. destruct Hy as [<-|[]]. reflexivity. }
      assert (Es : stability S0 p1 = stability S0 p).
      { apply same_together_stability; [exact HN1|]. intros x y. split.
        - intros H'. assert (H2 := E1 x y H'). subst y. apply valid_self; [exact Hv|]. rewrite <- HN1. exact (proj1 (together_lt _ _ _ Hv1 H')).
        - intros H'. apply Hsf. destruct H' as (a & Ha & Hb). exists a, a. split; [exact Ha|]. split; [exact Hb|]. apply valid_self; [exact Hvmp|]. rewrite Hnm.
          exact (in_cluster_lt _ _ _ Ha). }
      assert (Ed : d = 0%num).
      { assert (E2 : stability (aggregate S0 p) mp' = stability S0 p1) by (apply aggregate_stands_for; try assumption; now split).
        assert (E3 := aggregate_default_stability S0 p). fold m in E3.
        rewrite (stability_ext mS (aggregate S0 p) mp') in Hst by (try exact Hvmp; rewrite Hnm; exact HmS).
        rewrite (stability_ext mS (aggregate S0 p) (part_default m)) in Hst by (try exact Hvm; exact HmS).
        rewrite E3, !stability_spec, E2, Es in Hst by assumption. revert Hst. generalize (stability S0 p) d. intros u v Hst. assert (v = u + v - u)%num as -> by ring. rewrite <- Hst. ring. }
      rewrite Ed. exact H0.
    + cbv zeta in HF. apply orb_false_iff in Estop. destruct Estop as [_ Estop].
      assert (Hd' : (thr < d)%num) by (destruct (qleb_spec d thr); [discriminate|]; now apply Qcnot_le_lt).
      destruct (rows_nonzero (length (cluster_list p1)) (aggregate T p1)); [|discriminate].
      refine (IH p1 _ _ d (S nm) q k _ Hd' HF Hk). assert (Hn1 : num_nodes p1 = n) by congruence.
      split; [exact Hv1|]. split; [exact Hne1|]. split; [exact Hn1|]. split; [reflexivity|].
      intros a b x y Ha Hb L. unfold row_normalised. assert (L' := aggregate_pos_entry p1 a b x y Hv1 Hn1 Ha Hb L). unfold Qcdiv. apply qmult_pos; [exact L'|]. apply qinv_pos.
      rewrite (aggregate_row_sum n T p1 a Hv1 Hn1). destruct HT as [Hnn Hrow]. apply Qclt_le_trans with (sumN n (T x)).
      * apply Hrow. rewrite <- Hn1. apply (together_lt p1 x x Hv1). exists a. now split.
      * apply (sumL_nonneg_term (fun i => sumN n (T i))); [|now apply In_nth_in_cluster]. intros i Hi. apply Qclt_le_weak, Hrow. rewrite <- Hn1. apply (together_lt p1 i i Hv1). exists a. split; now apply In_nth_in_cluster.
Qed.

(** one sweep was made, and it gained no more than the threshold *)
Lemma moves_once (M : mat) neighs ords m mp d nl : neighs_in_range m neighs -> (forall i, order_in_range m (ords i)) -> (thr < 1)%num ->
  louvain_move_nodes setord M neighs ords thr nsub (part_default m) = MDone mp d nl -> (d <= thr)%num ->
  exists p1 e, sweep setord M neighs (ords 1) (part_default m) = Some (p1, e) /\ (e <= thr)%num /\ mp = remove_empty_clusters p1.
Proof.
  intros Hr Ho H1 HF Hd. unfold louvain_move_nodes in HF. destruct nsub as [|ns] eqn:En; [lia|]. cbn [sweeps] in HF. rewrite <- En in HF.
  destruct (qltb_spec thr 1%num) as [_|N]; [|contradiction]. destruct (Nat.ltb_spec 1 nsub) as [_|N]; [|lia]. cbn [andb] in HF.
  destruct (sweep_spec setord M neighs (ords 1) (part_default m) Hso (default_valid m) Hr (Ho 1)) as (p1 & e & ES & V1 & N1 & He & _). rewrite ES in HF.
  change (num_nodes (part_default m)) with m in N1.
  destruct (sweeps_spec setord M neighs ords thr nsub Hso ns p1 e (0 + e)%num 2 V1) as (p2 & d2 & n2 & ES2 & _ & _ & _ & Hle & _).
  { now rewrite N1. } { intros i. rewrite N1. apply Ho. } { revert He. generalize e. qlra. } { lia. }
  rewrite ES2 in HF. assert (d2 = d) by congruence. subst d2. exists p1, e. split; [exact ES|].
  assert (Het : (e <= thr)%num) by (revert Hle Hd; generalize e d thr; qlra). split; [exact Het|].
  assert (E : sweeps ns setord M neighs ords thr nsub p1 e (0 + e)%num 2 = MDone (remove_empty_clusters p1) (0 + e)%num 2).
  { destruct ns; cbn [sweeps]; (destruct (qltb_spec thr e) as [L|_]; [exfalso; revert L Het; generalize e thr; qlra|]); reflexivity. }
  congruence.
Qed.

(** a step of a level joins two clusters of the partition it starts from *)
Lemma default_in_cluster m c y : in_cluster (cluster_list (part_default m)) c y -> c = y /\ y < m.
Proof.
  intros H. assert (Hc := in_cluster_lt _ _ _ H). rewrite default_length in Hc. assert (H' : together (part_default m) c y).
  { exists c. split; [|exact H]. exists [c]. rewrite default_clusters, nth_error_map, (nth_error_nth' _ 0) by now rewrite seq_length. rewrite seq_nth by exact Hc. split; [reflexivity|now left]. }
  apply default_self in H'. destruct H' as [<- ?]. now split.
Qed.
Lemma step_joins p mT mS s t r : level p mT mS -> let m := length (cluster_list p) in s < m -> t < m -> s <> t -> move_node (part_default m) s t = Done r ->
  exists q, gain_of mS (part_default m) r = gain_of S0 p q /\
    forall x y, in_cluster (cluster_list p) s x -> in_cluster (cluster_list p) t y -> merge_of p x y q.
Proof.
  intros (Hv & Hne & Hn & HmS & HmT) m Hs Htm Hst Hm.
  assert (Hvm : valid (part_default m)) by apply default_valid. destruct (move_node_done_valid _ s t r Hvm Hm) as [Hvr Hnr]. change (num_nodes (part_default m)) with m in Hnr.
  destruct (C02_move_frame _ s t r Hvm Hs Hm) as (I1 & F1 & F2).
  assert (TR : forall a b, together r a b <-> (a = b /\ a < m) \/ (s = a /\ t = b) \/ (t = a /\ s = b)).
  { assert (I2 : in_cluster (cluster_list r) t t). { apply F1; [congruence|]. assert (X := proj2 (default_self m t t) (conj eq_refl Htm)). destruct X as (d & X & _). assert (Y := default_in_cluster _ _ _ X). destruct Y as [-> _]. exact X. }
    assert (AS : forall b, b <> s -> together r s b -> b = t).
    { intros b Nb (d & D1 & D2). assert (d = t) as -> by (apply Hvr in D1, I1; congruence). apply F1 in D2; [|exact Nb]. apply default_in_cluster in D2. symmetry. apply D2. }
    intros a b. split.
    - intros H. destruct (together_lt _ _ _ Hvr H) as [La Lb]. rewrite Hnr in La, Lb. destruct (Nat.eq_dec a s) as [->|Na]; destruct (Nat.eq_dec b s) as [->|Nb].
      + left. now split.
      + right. left. split; [reflexivity|]. symmetry. now apply AS.
      + right. right. split; [|reflexivity]. symmetry. apply AS; [exact Na|now apply together_sym].
      + left. apply (F2 a b Na Nb) in H. now apply default_self.
    - intros [[<- La]|[[<- <-]|[<- <-]]].
      + apply valid_self; [exact Hvr|now rewrite Hnr].
      + exists t. now split.
      + exists t. now split. }
  assert (Hp0 : 0 < num_nodes p) by lia.
  destruct (updated_stands_for p (remove_empty_clusters r) Hv Hne (remove_empty_valid r Hvr) (remove_empty_no_empty r)) as (q & _ & Hvq & _ & HNq & Hsf); [exact Hnr|exact Hp0|].
  exists q. split.
  - unfold gain_of. rewrite <- (aggregate_stands_for S0 p (remove_empty_clusters r) q Hv (remove_empty_valid r Hvr) Hnr Hvq (conj HNq Hsf)).
    rewrite <- (stability_spec S0 p Hv), <- (aggregate_default_stability S0 p). fold m.
    rewrite <- (stability_spec _ (remove_empty_clusters r) (remove_empty_valid r Hvr)), stability_remove_empty.
    rewrite <- (stability_spec mS r Hvr), <- (stability_spec mS (part_default m) Hvm).
    rewrite (stability_ext mS (aggregate S0 p) r), (stability_ext mS (aggregate S0 p) (part_default m)); [reflexivity|exact Hvm|exact HmS|exact Hvr|rewrite Hnr; exact HmS].
  - intros x y Hx Hy. split; [exact Hvq|]. split; [exact HNq|].
    assert (TC : forall c z w, in_cluster (cluster_list p) c z -> (together p z w <-> in_cluster (cluster_list p) c w)).
    { intros c z w Hz. split; [|intros Hw; exists c; now split]. intros (d & D1 & D2). assert (d = c) as <- by (apply Hv in D1, Hz; congruence). exact D2. }
    intros i j. rewrite Hsf, !(TC s x _ Hx), !(TC t y _ Hy). split.
    + intros (a & b & Ha & Hb & Hab). rewrite remove_empty_together in Hab. apply TR in Hab. destruct Hab as [[<- _]|[[<- <-]|[<- <-]]].
      * left. exists a. now split.
      * right. left. now split.
      * right. right. now split.
    + intros [(a & Ha & Hb)|[[Ha Hb]|[Ha Hb]]].
      * exists a, a. split; [exact Ha|]. split; [exact Hb|]. rewrite remove_empty_together. apply TR. left. split; [reflexivity|]. exact (in_cluster_lt _ _ _ Ha).
      * exists s, t. split; [exact Ha|]. split; [exact Hb|]. rewrite remove_empty_together. apply TR. right. left. now split.
      * exists t, s. split; [exact Ha|]. split; [exact Hb|]. rewrite remove_empty_together. apply TR. right. right. now split.
Qed.
(** when no step is tied, the last sweep moves nothing *)
Lemma sweep_still (M : mat) neighs order p p1 e : valid p -> neighs_in_range (num_nodes p) neighs -> order_in_range (num_nodes p) order ->
  (forall x r, x < num_nodes p -> step_of neighs p x r -> (gain_of M p r < 0)%num \/ (thr < gain_of M p r)%num) ->
  sweep setord M neighs order p = Some (p1, e) -> (e <= thr)%num ->
  p1 = p /\ forall x r, In x order -> step_of neighs p x r -> (gain_of M p r < 0)%num.
Proof.
  intros Hv Hr Ho HU ES He. destruct (sweep_from_visits setord M neighs _ Hso Hr order p 0%num p1 e Ho Hv eq_refl ES) as (V1 & N1 & _ & A).
  assert (HV : forall l y r, order = l ++ y :: r -> sweep setord M neighs l p = Some (p, 0%num) ->
    visit setord M neighs p y = Some (p, 0%num) /\ forall q, step_of neighs p y q -> (gain_of M p q < 0)%num).
  { intros l y r E IH. destruct (A l y r E) as (px & g & p2 & g2 & E1 & Vx & Nx & E2 & Hg & Hle). unfold sweep in IH. unfold sweep_from in E1. rewrite IH in E1.
    assert (p = px) by congruence. assert (g = 0%num) by congruence. subst px g.
    assert (Hy : y < num_nodes p). { apply Ho. rewrite E. apply in_or_app. right. now left. }
    destruct (C188_visit_best setord M neighs p y Hso Hv Hr Hy) as (p3 & g3 & E3 & Eg & _ & [[-> HL]|[Hs Hp]]).
    - split; [|exact HL]. rewrite E3, Eg. unfold gain_of. repeat f_equal. ring.
    - exfalso. assert (Q : g3 = g2) by congruence. rewrite Q in *. clear Q. destruct (HU y p3 Hy Hs) as [X|X]; rewrite <- Eg in X; revert X Hp Hle He; generalize g2 e thr; qlra. }
  assert (B : forall l r, order = l ++ r -> sweep setord M neighs l p = Some (p, 0%num)).
  { induction l as [|y l IH] using rev_ind; intros r E; [reflexivity|]. rewrite <- app_assoc in E. cbn [app] in E. specialize (IH _ E). destruct (HV l y r E IH) as [E2 _].
    unfold sweep in IH |- *. rewrite fold_left_app, IH. cbn [fold_left]. rewrite E2. repeat f_equal; ring. }
  split.
  - assert (E := B order [] ltac:(now rewrite app_nil_r)). congruence.
  - intros x r Hx Hs. destruct (in_split x _ Hx) as (o1 & o2 & Eo). exact (proj2 (HV o1 x o2 Eo (B o1 _ Eo)) r Hs).
Qed.
(** hence the last level only confirms the partition that it starts from *)
Lemma level_still p mT mS mp d nl lv q : level p mT mS -> (thr < 1)%num ->
  (forall p' x y r, valid p' -> num_nodes p' = n -> x < n -> y < n -> ~ together p' x y -> merge_of p' x y r -> (gain_of S0 p' r < 0)%num \/ (thr < gain_of S0 p' r)%num) ->
  (d <= thr)%num -> updated_partition p mp = Some q ->
  let m := length (cluster_list p) in louvain_move_nodes setord mS (neighs_of m mT) (fun i => orders lv i m) thr nsub (part_default m) = MDone mp d nl ->
  (forall x y, together q x y <-> together p x y) /\
  forall x y r, ~ together p x y -> flow_between T p x y -> merge_of p x y r -> (gain_of S0 p r < 0)%num.
Proof.
  intros Hl H1 HU Hd Hu m Hmv. assert (Hl' := Hl). destruct Hl' as (Hv & Hne & Hn & HmS & HmT).
  destruct (moves_once mS (neighs_of m mT) (fun i => orders lv i m) m mp d nl (neighs_of_range m mT) (fun i => shuffles_in_range orders lv m Hsh i) H1 Hmv Hd) as (p1 & e & ES & He & ->).
  assert (REP : forall s, s < m -> exists x, in_cluster (cluster_list p) s x).
  { intros s Hs. destruct (nth_error (cluster_list p) s) as [c|] eqn:Ec; [|apply nth_error_None in Ec; unfold m in Hs; lia].
    destruct c as [|x c]; [exfalso; eapply Forall_forall in Hne; [apply Hne; reflexivity|]; eapply nth_error_In; exact Ec|]. exists x, (x :: c). split; [exact Ec|now left]. }
  assert (UN : forall s r, s < m -> step_of (neighs_of m mT) (part_default m) s r -> (gain_of mS (part_default m) r < 0)%num \/ (thr < gain_of mS (part_default m) r)%num).
  { intros s r Hs (t & c & _ & Hnt & Hc & Hm). apply default_in_cluster in Hc. destruct Hc as [-> Ht]. assert (Hne' : s <> t) by (intros <-; apply Hnt, default_self; now split).
    destruct (step_joins p mT mS s t r Hl Hs Ht Hne' Hm) as (q' & Eg & Hmg). fold m in Eg. rewrite Eg. destruct (REP s Hs) as [x Hx]. destruct (REP t Ht) as [y Hy].
    assert (R : forall c z, in_cluster (cluster_list p) c z -> z < n) by (intros c z Hz; rewrite <- Hn; apply (together_lt p z z Hv); exists c; now split).
    apply (HU p x y q' Hv Hn (R s x Hx) (R t y Hy)); [|now apply Hmg]. intros (c & C1 & C2). apply Hne'. apply Hv in C1, C2, Hx, Hy. congruence. }
  destruct (sweep_still mS (neighs_of m mT) (orders lv 1 m) (part_default m) p1 e (default_valid m) (neighs_of_range m mT) (shuffles_in_range orders lv m Hsh 1) UN ES He) as [-> HS].
  split.
  - assert (Hvr := remove_empty_valid _ (default_valid m)). assert (Hp0 : 0 < num_nodes p) by lia.
    destruct (updated_stands_for p (remove_empty_clusters (part_default m)) Hv Hne Hvr (remove_empty_no_empty _)) as (q' & Hu' & _ & _ & _ & Hsf); [reflexivity|exact Hp0|].
    assert (q' = q) by congruence. subst q'. intros x y. rewrite Hsf. split.
    + intros (a & b & Ha & Hb & Hab). rewrite remove_empty_together in Hab. apply default_self in Hab. destruct Hab as [<- _]. exists a. now split.
    + intros (a & Ha & Hb). exists a, a. split; [exact Ha|]. split; [exact Hb|]. rewrite remove_empty_together. apply default_self. split; [reflexivity|]. exact (in_cluster_lt _ _ _ Ha).
  - intros x y r Hnt (i & j & (s & Hxs & His) & (t & Hyt & Hjt) & Hf) (Hvr & Hnr & Hr).
    assert (Hs : s < m) by exact (in_cluster_lt _ _ _ Hxs). assert (Ht : t < m) by exact (in_cluster_lt _ _ _ Hyt).
    assert (Nst : t <> s) by (intros ->; apply Hnt; exists s; now split).
    destruct (move_node_valid (part_default m) s t (default_valid m) Hs) as (mr & Hm & _); [now rewrite default_length|].
    assert (Hin : In t (neighs_of m mT s)).
    { unfold neighs_of. apply filter_In. split; [now apply seq_In_iff|]. apply orb_true_iff.
      destruct Hf as [Hf|Hf]; [left; destruct (qltb_spec 0%num (mT s t)) as [|N]|right; destruct (qltb_spec 0%num (mT t s)) as [|N]]; try reflexivity; exfalso; apply N; eapply HmT; eassumption. }
    assert (Htt : in_cluster (cluster_list (part_default m)) t t).
    { assert (X := proj2 (default_self m t t) (conj eq_refl Ht)). destruct X as (d' & X & _). assert (Y := default_in_cluster _ _ _ X). destruct Y as [-> _]. exact X. }
    assert (Hst : step_of (neighs_of m mT) (part_default m) s mr).
    { exists t, t. split; [exact Hin|]. split; [intros X; apply default_self in X; lia|]. now split. }
    assert (Hg : (gain_of mS (part_default m) mr < 0)%num).
    { apply (HS s mr); [|exact Hst]. apply (Permutation_in _ (Permutation_sym (Hsh lv 1 m))). now apply seq_In_iff. }
    destruct (step_joins p mT mS s t mr Hl Hs Ht (not_eq_sym Nst) Hm) as (q' & Eg & Hmg). fold m in Eg. rewrite Eg in Hg.
    destruct (Hmg x y Hxs Hyt) as (Hvq & Hnq & Hq). assert (E : stability S0 r = stability S0 q').
    { apply same_together_stability; [congruence|]. intros a b. rewrite Hr, Hq. reflexivity. }
    unfold gain_of in *. rewrite E. exact Hg.
Qed.
End Ends.

(** * C199 *)
(** no merge of clusters is tied: each loses, or gains more than the threshold *)
Definition untied (n : nat) (M : mat) (thr : num) : Prop := forall p x y r, valid p -> num_nodes p = n -> x < n -> y < n -> ~ together p x y -> merge_of p x y r ->
  (gain_of M p r < 0)%num \/ (thr < gain_of M p r)%num.
Lemma full_together n x y : 0 < n -> x < n -> y < n -> together (full_partition n) x y.
Proof. intros Hn Hx Hy. exists 0. rewrite full_partition_clusters by exact Hn. split; (exists (seq 0 n); split; [reflexivity|now apply seq_In_iff]). Qed.
(** what holds: without ties, any two clusters with some flow between them lose by being merged *)
Theorem C199_untied_partial : forall setord orders T S thr nmeta nsub n q k,
  is_iteration_order setord -> shuffles orders -> 0 < n -> has_out_flow n T -> (0 <= thr)%num -> (thr < 1)%num -> 2 <= nsub -> untied n S thr ->
  find_louvain setord orders T S thr nmeta nsub (part_default n) = LDone q k -> k <= nmeta ->
  forall x y r, x < n -> y < n -> ~ together q x y -> flow_between T q x y -> merge_of q x y r -> (gain_of S q r < 0)%num.
Proof.
  intros setord orders T S thr nmeta nsub n q k Hso Hsh Hn HT H0 H1 Hn2 HU HF Hk x y r Hx Hy Hnt Hfl Hm.
  assert (Hd0 := find_louvain_default setord orders T S thr nmeta nsub n Hso Hsh Hn).
  unfold find_louvain in Hd0, HF. change (num_nodes (part_default n)) with n in Hd0, HF. destruct (Nat.eqb_spec n 0) as [->|_]; [lia|].
  destruct (S_is_zero n S).
  - exfalso. apply Hnt. assert (E : full_partition n = q) by congruence. rewrite <- E. now apply full_together.
  - rewrite part_of_list_default in HF. assert (HL : level T S n (part_default n) T S).
    { split; [apply default_valid|]. split; [apply default_no_empty|]. split; [reflexivity|]. rewrite default_length. split; [intros a b Ha Hb; symmetry; now apply default_aggregate_entry|].
      intros a b u v Ha Hb L. apply default_in_cluster in Ha, Hb. destruct Ha as [-> _]. destruct Hb as [-> _]. exact L. }
    assert (EL : part_default n = part_default (length (cluster_list (part_default n)))) by now rewrite default_length.
    assert (HF' : meta_loop (Datatypes.S (Datatypes.S nmeta)) setord orders T S thr nmeta nsub (part_default n) T S (part_default (length (cluster_list (part_default n)))) 1%num 0 false = LDone q k) by now rewrite <- EL.
    destruct (meta_loop_ends setord orders T S thr nmeta nsub n Hso Hsh HT Hn H0 Hn2 (Datatypes.S (Datatypes.S nmeta)) _ _ _ _ _ _ _ HL H1 HF' Hk) as (p & mT & mS & mp & d & nl & lv & Hl & Hd & Hu & Hmv).
    destruct (level_still setord orders T S thr nsub n Hso Hsh Hn Hn2 p mT mS mp d nl lv q Hl H1 HU Hd Hu Hmv) as [HQ HG].
    destruct Hl as (Hv & _ & Hnp & _). destruct Hm as (Hvr & Hnr & Hr). assert (Hq : num_nodes q = num_nodes p).
    { destruct (Hd0 eq_refl HT) as (q' & k' & E & _ & _ & Hq' & _). rewrite part_of_list_default in E. congruence. }
    assert (G : (gain_of S p r < 0)%num).
    { apply (HG x y r).
      - now rewrite <- HQ.
      - destruct Hfl as (i & j & Hi & Hj & Hf). exists i, j. rewrite <- !HQ. now split.
      - split; [exact Hvr|]. split; [congruence|]. intros i j. rewrite Hr, !HQ. reflexivity. }
    unfold gain_of in *. rewrite (same_together_stability S q p Hq HQ). exact G.
Qed.

Lemma sum_sign m (f : nat -> num) : (sumN m f <= 0)%num \/ exists i, i < m /\ (0 < f i)%num.
Proof.
  induction m as [|m IH]; [left; apply Qcle_refl|]. destruct IH as [IH|(i & Hi & Hp)]; [|right; exists i; split; [lia|exact Hp]].
  destruct (Qclt_le_dec 0 (f m)) as [L|L]; [right; exists m; split; [lia|exact L]|left]. rewrite sumN_S. revert IH L. generalize (sumN m f) (f m). qlra.
Qed.
Lemma merge_flow n p1 p2 T q x y r : walk_step n p1 p2 T -> num_nodes q = n -> merge_of q x y r -> (0 < gain_of (walk_covariance p1 p2 T) q r)%num -> valid q -> flow_between T q x y.
Proof.
  intros (HT & _ & Hp1 & _ & Hp2) Hn (Hvr & Hnr & Hr) HG Hv.
  assert (E : gain_of (walk_covariance p1 p2 T) q r = sumN n (fun i => sumN n (fun j => if sameb r i j && negb (sameb q i j) then walk_covariance p1 p2 T i j else 0%num))).
  { unfold gain_of, stability. rewrite Hnr, Hn, <- sumN_sub. apply sumN_ext. intros i Hi. rewrite <- sumN_sub. apply sumN_ext. intros j Hj.
    destruct (sameb q i j) eqn:Eq; cbn [negb andb].
    - apply sameb_together in Eq. assert (Er : sameb r i j = true) by (apply sameb_together, Hr; now left). rewrite Er. cbn [andb]. ring.
    - destruct (sameb r i j); cbn [andb]; ring. }
  rewrite E in HG. destruct (sum_sign n (fun i => sumN n (fun j => if sameb r i j && negb (sameb q i j) then walk_covariance p1 p2 T i j else 0%num))) as [L|(i & Hi & L)];
    [exfalso; now apply Qclt_not_le in HG|].
  destruct (sum_sign n (fun j => if sameb r i j && negb (sameb q i j) then walk_covariance p1 p2 T i j else 0%num)) as [L'|(j & Hj & L')]; [exfalso; now apply Qclt_not_le in L|].
  destruct (sameb r i j) eqn:Er; cbn [andb] in L'; [|discriminate]. destruct (sameb q i j) eqn:Eq; cbn [negb] in L'; [discriminate|].
  assert (Hpos : (0 < T i j)%num).
  { destruct (Qclt_le_dec 0 (T i j)) as [P|P]; [exact P|]. exfalso. assert (Z : T i j = 0%num) by (apply Qcle_antisym; [exact P|now apply HT]). unfold walk_covariance in L'. rewrite Z in L'.
    assert (P2 : (0 <= p2 j)%num). { rewrite (Hp2 j Hj). apply sumN_nonneg. intros a Ha. apply qmult_nonneg; [now apply Hp1|now apply HT]. }
    assert (PP := qmult_nonneg _ _ (Hp1 i Hi) P2). revert L' PP. generalize (p1 i * p2 j)%num. intros u L' PP. revert L'. replace (p1 i * 0 - u)%num with (- u)%num by ring. revert PP. generalize u. qlra. }
  apply sameb_together, Hr in Er. destruct Er as [Er|[[A B]|[A B]]].
  - apply sameb_together in Er. congruence.
  - exists i, j. auto.
  - exists j, i. auto.
Qed.
Lemma walk_out_flow n p1 p2 T : walk_step n p1 p2 T -> has_out_flow n T.
Proof. intros (HT & HR & _). split; [exact HT|]. intros i Hi. rewrite (HR i Hi). reflexivity. Qed.
(** for a walk, any two clusters lose by being merged *)
Theorem C199_walk_partial : forall setord orders p1 p2 T thr nmeta nsub n q k,
  is_iteration_order setord -> shuffles orders -> 0 < n -> walk_step n p1 p2 T -> (0 <= thr)%num -> (thr < 1)%num -> 2 <= nsub -> untied n (walk_covariance p1 p2 T) thr ->
  find_louvain setord orders T (compute_S p1 p2 T) thr nmeta nsub (part_default n) = LDone q k -> k <= nmeta ->
  forall x y r, x < n -> y < n -> ~ together q x y -> merge_of q x y r -> (gain_of (walk_covariance p1 p2 T) q r < 0)%num.
Proof.
  intros setord orders p1 p2 T thr nmeta nsub n q k Hso Hsh Hn HW H0 H1 Hn2 HU HF Hk x y r Hx Hy Hnt Hm. change (compute_S p1 p2 T) with (walk_covariance p1 p2 T) in HF. assert (HT := walk_out_flow n p1 p2 T HW).
  destruct (S_is_zero n (walk_covariance p1 p2 T)) eqn:EZ.
  - exfalso. apply Hnt. unfold find_louvain in HF. change (num_nodes (part_default n)) with n in HF. destruct (Nat.eqb_spec n 0) as [->|_]; [lia|]. rewrite EZ in HF.
    assert (E : full_partition n = q) by congruence. rewrite <- E. now apply full_together.
  - destruct (find_louvain_default setord orders T _ thr nmeta nsub n Hso Hsh Hn EZ HT) as (q' & k' & E & Hv & _ & Hq & _). assert (q' = q) by congruence. subst q'.
    destruct (HU q x y r Hv Hq Hx Hy Hnt Hm) as [G|G]; [exact G|].
    apply (C199_untied_partial setord orders T _ thr nmeta nsub n q k Hso Hsh Hn HT H0 H1 Hn2 HU HF Hk x y r Hx Hy Hnt); [|exact Hm].
    apply (merge_flow n p1 p2 T q x y r HW Hq Hm); [|exact Hv]. revert G H0. generalize (gain_of (walk_covariance p1 p2 T) q r) thr. qlra.
Qed.

(** ** Ties *)
Definition T199 : mat := of_rows (map (map (fun z => qf z 50)) [[17; 9; 10; 9; 5]; [9; 20; 11; 5; 5]; [10; 11; 13; 11; 5]; [9; 5; 11; 14; 11]; [5; 5; 5; 11; 24]])%Z.
Definition p199 (i : nat) : num := qf 1 5.
Definition S199 : mat := compute_S p199 p199 T199.
Definition q199 : partition := match find_louvain keep_order in_order T199 S199 0%num 10 10 (part_default 5) with LDone q _ => q | _ => part_default 5 end.
Definition r199 : partition := mkPart 5 [[0; 1; 2]; [3; 4]] (build_dict [[0; 1; 2]; [3; 4]]).
Lemma run199 : find_louvain keep_order in_order T199 S199 0%num 10 10 (part_default 5) = LDone q199 1 /\ cluster_list q199 = [[1; 0]; [2]; [4; 3]] /\ num_nodes q199 = 5.
Proof. vm_compute. repeat split; reflexivity. Qed.
Lemma walk199 : walk_step 5 p199 p199 T199.
Proof.
  split; [|split; [|split; [|split]]].
  - intros i j Hi Hj. do 5 (destruct i as [|i]; [do 5 (destruct j as [|j]; [vm_compute; discriminate|]); lia|]). lia.
  - intros i Hi. do 5 (destruct i as [|i]; [apply Qc_is_canon; vm_compute; reflexivity|]). lia.
  - intros i _. vm_compute. discriminate.
  - apply Qc_is_canon. vm_compute. reflexivity.
  - intros i Hi. do 5 (destruct i as [|i]; [apply Qc_is_canon; vm_compute; reflexivity|]). lia.
Qed.
Lemma listed_together p x y : together p x y <-> sameb p x y = true.
Proof. symmetry. apply sameb_together. Qed.
Lemma r199_valid : valid r199.
Proof.
  assert (H : partitions 5 [[0; 1; 2]; [3; 4]]).
  { apply partitions_perm. cbn [concat app]. apply Permutation_refl. }
  split; [exact H|]. apply build_dict_matches. apply H.
Qed.
(** the two clusters 0, 1 and 2 would gain by being one *)
Lemma merge199 : merge_of q199 0 2 r199.
Proof.
  destruct run199 as (_ & EC & EN). split; [exact r199_valid|]. split; [now rewrite EN|]. intros i j. rewrite !listed_together. unfold sameb. rewrite EC. cbn [cluster_list r199].
  do 5 (destruct i as [|i]; [do 5 (destruct j as [|j]; [vm_compute; intuition congruence|]); vm_compute; intuition congruence|]). vm_compute. intuition congruence.
Qed.
Theorem C199_ties_refuted : ~ C199_statement.
Proof.
  intros H. destruct run199 as (ER & EC & EN).
  assert (G := H keep_order in_order p199 p199 T199 0%num 10 10 5 q199 1 keep_order_ok in_order_ok ltac:(lia) walk199 ltac:(discriminate) ltac:(reflexivity) ltac:(lia) ER ltac:(lia)
    0 2 r199 ltac:(lia) ltac:(lia)).
  assert (N : ~ together q199 0 2) by (rewrite listed_together; unfold sameb; rewrite EC; discriminate).
  specialize (G N merge199). vm_compute in G. now apply G.
Qed.

(** ** Three nodes without ties *)
Definition T199b : mat := of_rows (map (map (fun z => qf z 6)) [[0; 5; 1]; [5; 0; 1]; [1; 1; 4]])%Z.
Definition p199b (i : nat) : num := qf 1 3.
Example C199_applies : walk_step 3 p199b p199b T199b /\ untied 3 (walk_covariance p199b p199b T199b) 0%num /\
  exists q k, find_louvain keep_order in_order T199b (compute_S p199b p199b T199b) 0%num 10 10 (part_default 3) = LDone q k /\ k = 2 /\ cluster_list q = [[0; 1]; [2]] /\
    exists r, merge_of q 0 2 r.
Proof.
  split; [|split].
  - split; [|split; [|split; [|split]]].
    + intros i j Hi Hj. do 3 (destruct i as [|i]; [do 3 (destruct j as [|j]; [vm_compute; discriminate|]); lia|]). lia.
    + intros i Hi. do 3 (destruct i as [|i]; [apply Qc_is_canon; vm_compute; reflexivity|]). lia.
    + intros i _. vm_compute. discriminate.
    + apply Qc_is_canon. vm_compute. reflexivity.
    + intros i Hi. do 3 (destruct i as [|i]; [apply Qc_is_canon; vm_compute; reflexivity|]). lia.
  - intros p x y r Hv Hn Hx Hy Hnt (Hvr & Hnr & Hr).
    assert (SY : forall q i j, sameb q i j = sameb q j i) by (intros q i j; apply Bool.eq_true_iff_eq; rewrite !sameb_together; split; apply together_sym).
    assert (SD : forall q i, valid q -> num_nodes q = 3 -> i < 3 -> sameb q i i = true) by (intros q i V N Hi; apply sameb_together, valid_self; [exact V|now rewrite N]).
    assert (LE : forall i j, sameb p i j = true -> sameb r i j = true) by (intros i j; rewrite !sameb_together, Hr; tauto).
    assert (NE : sameb p 0 1 = sameb r 0 1 -> sameb p 0 2 = sameb r 0 2 -> sameb p 1 2 = sameb r 1 2 -> False).
    { intros E1 E2 E3. rewrite <- Hn in Hx, Hy. assert (R : sameb r x y = true). { apply sameb_together, Hr. right. left. split; now apply valid_self. }
      assert (P : sameb p x y = false) by (apply Bool.not_true_is_false; rewrite sameb_together; exact Hnt). rewrite Hn in Hx, Hy.
      assert (E : forall i j, i < 3 -> j < 3 -> sameb p i j = sameb r i j).
      { intros i j Hi Hj. do 3 (destruct i as [|i]; [do 3 (destruct j as [|j]; [first [assumption | rewrite (SY p), (SY r); assumption | rewrite !SD by (assumption || congruence || lia); reflexivity]|]); lia|]). lia. }
      rewrite E in P by assumption. congruence. }
    assert (L1 := LE 0 1). assert (L2 := LE 0 2). assert (L3 := LE 1 2).
    unfold gain_of, stability. rewrite Hnr, Hn. unfold sumN. cbn [seq]. rewrite !sumL_cons, !sumL_nil.
    rewrite !(SD p), !(SD r), (SY p 1 0), (SY p 2 0), (SY p 2 1), (SY r 1 0), (SY r 2 0), (SY r 2 1) by (assumption || congruence || lia).
    destruct (sameb p 0 1), (sameb p 0 2), (sameb p 1 2), (sameb r 0 1), (sameb r 0 2), (sameb r 1 2);
      try (exfalso; apply NE; reflexivity); try (specialize (L1 eq_refl); discriminate); try (specialize (L2 eq_refl); discriminate); try (specialize (L3 eq_refl); discriminate);
      first [left; vm_compute; reflexivity | right; vm_compute; reflexivity].
  - eexists _, _. split; [vm_compute; reflexivity|]. split; [reflexivity|]. split; [reflexivity|]. exists (full_partition 3).
    split; [apply full_partition_valid; lia|]. split; [reflexivity|]. intros i j. rewrite !listed_together.
    do 3 (destruct i as [|i]; [do 3 (destruct j as [|j]; [vm_compute; intuition congruence|]); vm_compute; intuition congruence|]). vm_compute. intuition congruence.
Qed.
Print Assumptions C199_ties_refuted.
Print Assumptions C199_untied_partial.
Print Assumptions C199_walk_partial.
Print Assumptions C199_applies.
