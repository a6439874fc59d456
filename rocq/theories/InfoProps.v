(** Information measures: properties C16-C18, C67-C69. *)
From Verif Require Import Base PartitionModel PartitionSpec PartitionProofs InfoModel InfoSpec InfoProofs InfoNviProofs InfoMoreProofs.
From Coq Require Import Lra.
Local Open Scope R_scope.

(** * C16 *)
Theorem C16_metric : forall V P Q S, (2 <= length V)%nat -> partition_of V P -> partition_of V Q -> partition_of V S ->
  exists dPQ dQS dPS,
    norm_var_information (AList P) (AList Q) None = Some dPQ /\
    norm_var_information (AList Q) (AList P) None = Some dPQ /\
    norm_var_information (AList Q) (AList S) None = Some dQS /\
    norm_var_information (AList P) (AList S) None = Some dPS /\
    0 <= dPQ <= 1 /\ (dPQ = 0 <-> same_clustering P Q) /\ dPS <= dPQ + dQS.
Proof.
  intros V P Q S HV HP HQ HS.
  destruct (nvi_metric V HV P Q S (partition_covers _ _ HP) (partition_covers _ _ HQ) (partition_covers _ _ HS)) as (M1 & M2 & M3 & M4).
  exists (nvi_val V P Q), (nvi_val V Q S), (nvi_val V P S). unfold norm_var_information. cbn [to_list].
  rewrite !(nvi_lists_spec V) by auto. rewrite <- M1. repeat (split; [reflexivity|]). auto.
Qed.
Ltac part_tac := split; [repeat (constructor; [cbn; lia|]); constructor|split;
  [apply NoDup_Permutation; [repeat (constructor; [cbn; lia|]); constructor|repeat (constructor; [cbn; lia|]); constructor|
     cbn; intros; tauto]|cbn; intuition congruence]].
Example C16_applies : partition_of [0; 1; 2]%nat [[0; 1]; [2]]%nat /\ partition_of [0; 1; 2]%nat [[2]; [0; 1]]%nat /\
  partition_of [0; 1; 2]%nat [[0]; [1]; [2]]%nat /\ same_clustering [[0; 1]; [2]]%nat [[2]; [0; 1]]%nat /\
  ~ same_clustering [[0; 1]; [2]]%nat [[0]; [1]; [2]]%nat.
Proof.
  split; [part_tac|]. split; [part_tac|]. split; [part_tac|]. split.
  - apply joined_perm. apply perm_swap.
  - intros H. destruct (proj1 (H 0%nat 1%nat)) as (c & Hc & Hx & Hy).
    + exists [0; 1]%nat. cbn. tauto.
    + cbn in Hc. intuition (subst; cbn in *; intuition congruence).
Qed.
(** one cluster and single nodes are at distance one *)
Lemma log2_half : log2 (1 * 1 / ((1 + 1) * 1)) = - 1.
Proof.
  unfold log2. replace (1 * 1 / ((1 + 1) * 1)) with (/ 2) by field. rewrite ln_Rinv by lra. pose proof ln2_pos. field. lra.
Qed.
Example C16_far : norm_var_information (AList [[0; 1]]%nat) (AList [[0]; [1]]%nat) None = Some 1.
Proof.
  unfold norm_var_information, nvi_lists, cython_nvi. cbn -[INR log2]. unfold vi_step. cbn -[log2].
  f_equal. rewrite log2_half. unfold log2. pose proof ln2_pos. replace (1 + 1) with 2 by lra. field. lra.
Qed.

(** * C17 *)
Lemma common_inter c1 c2 : common c1 c2 = inter_len c1 c2.
Proof.
  unfold common, inter_len. f_equal. apply filter_ext. intros x. destruct (in_dec Nat.eq_dec x c2) as [H|H].
  - symmetry. now apply memb_In.
  - symmetry. now apply memb_false.
Qed.
Lemma pair_bits_vi c1 c2 : pair_bits c1 c2 = vi_pair c1 c2.
Proof.
  unfold pair_bits, vi_pair, vi_term. rewrite common_inter. pose proof (inter_le c1 c2) as L.
  assert (L2 : inter_len c1 c2 <> 0%nat -> (0 < length c2)%nat).
  { intros H. unfold inter_len in H. destruct (filter (fun x => memb x c2) c1) as [|y l] eqn:E; [now cbn in H|].
    assert (Hy : In y (filter (fun x => memb x c2) c1)) by (rewrite E; now left). apply filter_In in Hy. rewrite memb_In in Hy.
    destruct c2; [destruct Hy as [_ []]|cbn; lia]. }
  destruct (inter_len c1 c2) as [|k]; [reflexivity|]. destruct (Nat.ltb_spec 0 (S k)); [|lia].
  assert (0 < INR (S k)) by (apply lt_0_INR; lia). assert (0 < INR (length c1)) by (apply lt_0_INR; lia).
  assert (0 < INR (length c2)) by (apply lt_0_INR; auto).
  unfold log2. rewrite !ln_div by now apply Rmult_lt_0_compat. unfold Rdiv. ring.
Qed.
Lemma double_sum_vi P Q : double_sum P Q = vi_sum P Q.
Proof.
  unfold double_sum, vi_sum. induction P as [|c P IH]; [reflexivity|]. cbn [fold_right]. rewrite IH, sumR_cons.
  generalize (sumR (fun c1 => sumR (vi_pair c1) Q) P). clear IH. intros s.
  induction Q as [|d Q IHQ]; [cbn; lra|]. cbn [fold_right]. rewrite IHQ, sumR_cons, pair_bits_vi. lra.
Qed.
Theorem C17_early_exit : forall P Q N, (1 < N)%nat -> NoDup (concat Q) ->
  cython_nvi P Q N = Some (double_sum P Q / n_bits N).
Proof. intros P Q N HN HQ. rewrite double_sum_vi. now apply cython_nvi_spec. Qed.
Theorem C17_vectors : forall P Q N, (1 < N)%nat -> Forall (@NoDup nat) P -> Forall (@NoDup nat) Q ->
  nvi_vectors P Q N = Some (double_sum P Q / n_bits N).
Proof. intros P Q N HN HP HQ. rewrite double_sum_vi. now apply nvi_vectors_spec. Qed.
Theorem C17_merge : forall l1 l2, StronglySorted lt l1 -> StronglySorted lt l2 -> sorted_inter_len l1 l2 = common l1 l2.
Proof. intros l1 l2 H1 H2. rewrite common_inter. unfold sorted_inter_len. rewrite merge_len_spec by (try assumption; lia). lia. Qed.
Example C17_applies : sorted_inter_len [1; 4; 6; 9]%nat [0; 4; 5; 9; 12]%nat = 2%nat /\ NoDup (concat [[0; 1]; [2]]%nat).
Proof. split; [reflexivity|]. repeat (constructor; [cbn; lia|]). constructor. Qed.

(** * C67: the other implementations *)
Theorem C67_mat_partial : forall P Q N, (1 < N)%nat -> NoDup (concat P) -> NoDup (concat Q) ->
  (length (concat P) <= N)%nat -> (length (concat Q) <= N)%nat -> nvi_mat P Q N = Some (double_sum P Q / n_bits N).
Proof. intros P Q N HN HP HQ LP LQ. rewrite double_sum_vi. now apply nvi_mat_spec. Qed.
(** what the parallel version returns depends on the memory it got *)
Definition C67_statement : Prop :=
  forall init P Q N, (1 < N)%nat -> NoDup (concat P) -> NoDup (concat Q) ->
  nvi_parallel init P Q N = Some (double_sum P Q / n_bits N).
Theorem C67_parallel_refuted : ~ C67_statement.
Proof.
  intros H. specialize (H (fun _ => 1) [[0]; [1]]%nat [[0]; [1]]%nat 2%nat).
  rewrite nvi_parallel_spec in H by lia. rewrite double_sum_vi in H.
  assert (E : NoDup (concat [[0]; [1]]%nat)) by (cbn; repeat (constructor; [cbn; lia|]); constructor).
  specialize (H ltac:(lia) E E). injection H as H. clear E.
  assert (K : 0 < n_bits 2).
  { unfold n_bits. cbn. pose proof ln2_pos. replace (1 + 1) with 2 by lra. apply Rmult_lt_0_compat; [lra|]. now apply Rdiv_lt_0_compat. }
  change (INR 2 * log2 (INR 2)) with (n_bits 2) in H. unfold Rdiv in H. apply Rmult_eq_reg_r in H; [|apply Rinv_neq_0_compat; lra].
  change (sumR (fun _ : nat => 1) (seq 0 (length [[0]; [1]]%nat))) with (1 + (1 + 0)) in H. lra.
Qed.
Theorem C67_parallel_partial : forall P Q N, (1 < N)%nat -> nvi_parallel (fun _ => 0) P Q N = Some (double_sum P Q / n_bits N).
Proof.
  intros P Q N HN. rewrite nvi_parallel_spec, double_sum_vi by assumption. rewrite sumR_0, Rplus_0_l. reflexivity.
Qed.

(** * C18 *)
Theorem C18_nmi : forall V P Q, (0 < length V)%nat -> covers V P -> covers V Q -> ~ (one_cluster V P /\ one_cluster V Q) ->
  exists d, norm_mutual_information (AList P) (AList Q) = Some d /\
    norm_mutual_information (AList Q) (AList P) = Some d /\ 0 <= d <= 1 /\ (d = 1 <-> same_clustering P Q).
Proof.
  intros V P Q HV HP HQ T. exists (nmi_val V P Q). unfold norm_mutual_information. cbn [to_list].
  destruct (nmi_props V P Q HP HQ T) as (N1 & N2 & N3).
  rewrite (proj2 (nmi_lists_spec V P Q HP HQ HV) T). rewrite (proj2 (nmi_lists_spec V Q P HQ HP HV)) by tauto.
  split; [reflexivity|]. split; [now rewrite N1|]. auto.
Qed.
(** two trivial clusterings: division by zero *)
Theorem C18_trivial : forall V P Q, (0 < length V)%nat -> covers V P -> covers V Q -> one_cluster V P -> one_cluster V Q ->
  norm_mutual_information (AList P) (AList Q) = None.
Proof. intros V P Q HV HP HQ T1 T2. now apply (proj1 (nmi_lists_spec V P Q HP HQ HV)). Qed.
Example C18_applies : covers [0; 1; 2]%nat [[0; 1]; [2]]%nat /\ covers [0; 1; 2]%nat [[0; 1; 2]]%nat /\
  ~ (one_cluster [0; 1; 2]%nat [[0; 1]; [2]]%nat /\ one_cluster [0; 1; 2]%nat [[0; 1; 2]]%nat).
Proof.
  split; [|split].
  - assert (H : partition_of [0; 1; 2]%nat [[0; 1]; [2]]%nat) by part_tac. now apply partition_covers.
  - assert (H : partition_of [0; 1; 2]%nat [[0; 1; 2]]%nat) by part_tac. now apply partition_covers.
  - intros [H _]. destruct (H 0%nat 2%nat) as (c & Hc & Hx & Hy); [cbn; tauto|cbn; tauto|].
    cbn in Hc. intuition (subst; cbn in *; intuition congruence).
Qed.

(** * C68: the form of the arguments *)
Definition C68_statement : Prop :=
  forall V a a' b b', (2 <= length V)%nat ->
  arg_covers V a -> arg_covers V a' -> arg_covers V b -> arg_covers V b' -> arg_same a a' -> arg_same b b' ->
  norm_var_information a b None = norm_var_information a' b' None.
(** a dictionary that skips a cluster number *)
Theorem C68_refuted : ~ C68_statement.
Proof.
  intros H.
  assert (P1 : partition_of [0; 1]%nat [[0]; [1]]%nat) by part_tac.
  assert (P2 : partition_of [0; 1]%nat [[0; 1]]%nat) by part_tac.
  assert (E : norm_var_information (ADict [(0, 0); (1, 2)]%nat) (AList [[0; 1]]%nat) None =
              norm_var_information (AList [[0]; [1]]%nat) (AList [[0; 1]]%nat) None).
  { apply (H [0; 1]%nat).
    - cbn. lia.
    - split; [apply P1|]. cbn. reflexivity.
    - now apply partition_covers.
    - now apply partition_covers.
    - now apply partition_covers.
    - intros x y. cbn [arg_joined]. split.
      + intros (i & Hx & Hy). cbn in Hx, Hy.
        destruct x as [|[|x]], y as [|[|y]]; cbn in Hx, Hy; try congruence; [exists [0]%nat|exists [1]%nat]; cbn; tauto.
      + intros (c & Hc & Hx & Hy). cbn in Hc. destruct Hc as [<-|[<-|[]]]; cbn in Hx, Hy;
          destruct Hx as [<-|[]], Hy as [<-|[]]; [exists 0%nat|exists 2%nat]; split; reflexivity.
    - intros x y. reflexivity. }
  unfold norm_var_information at 2 in E. cbn [to_list] in E.
  rewrite (nvi_lists_spec [0; 1]%nat) in E by (try assumption; cbn; auto).
  discriminate E.
Qed.
Theorem C68_forms_partial : forall V a a' b b', (2 <= length V)%nat ->
  arg_covers V a -> arg_covers V a' -> arg_covers V b -> arg_covers V b' -> arg_same a a' -> arg_same b b' ->
  arg_no_gap a -> arg_no_gap a' -> arg_no_gap b -> arg_no_gap b' ->
  norm_var_information a b None = norm_var_information a' b' None /\ norm_var_information a b None <> None.
Proof.
  intros V a a' b b' HV Ha Ha' Hb Hb' Sa Sb Ga Ga' Gb Gb'.
  destruct (to_list_spec V a Ha ltac:(lia)) as (P & _ & CP & JP & _).
  destruct (to_list_spec V b Hb ltac:(lia)) as (Q & _ & CQ & JQ & _).
  rewrite (nvi_args V a b P Q None), (nvi_args V a' b' P Q None); auto; [split; [reflexivity|discriminate]| |].
  - intros x y. now rewrite JP.
  - intros x y. now rewrite JQ.
Qed.
Theorem C68_nmi : forall V a a' b b', (0 < length V)%nat ->
  arg_covers V a -> arg_covers V a' -> arg_covers V b -> arg_covers V b' -> arg_same a a' -> arg_same b b' ->
  norm_mutual_information a b = norm_mutual_information a' b'.
Proof.
  intros V a a' b b' HV Ha Ha' Hb Hb' Sa Sb. unfold norm_mutual_information.
  destruct (to_list_spec V a Ha HV) as (P & -> & CP & JP & _). destruct (to_list_spec V b Hb HV) as (Q & -> & CQ & JQ & _).
  destruct (to_list_spec V a' Ha' HV) as (P' & -> & CP' & JP' & _). destruct (to_list_spec V b' Hb' HV) as (Q' & -> & CQ' & JQ' & _).
  apply (nmi_lists_same V); try assumption; intros x y.
  - now rewrite JP, JP'.
  - now rewrite JQ, JQ'.
Qed.
Example C68_applies : arg_covers [0; 1]%nat (ADict [(1, 0); (0, 1)]%nat) /\ arg_covers [0; 1]%nat (APartition (part_default 2)) /\
  arg_no_gap (ADict [(1, 0); (0, 1)]%nat) /\ arg_no_gap (APartition (part_default 2)) /\
  arg_same (ADict [(1, 0); (0, 1)]%nat) (APartition (part_default 2)).
Proof.
  assert (Hv : valid (part_default 2)) by (apply (constructed_valid 2); constructor).
  split; [|split; [|split; [|split]]].
  - split; [repeat (constructor; [cbn; lia|]); constructor|apply perm_swap].
  - split; [exact Hv|reflexivity].
  - intros x i j [E|[E|[]]] Hj; injection E as <- <-.
    + exists 1%nat. replace j with 0%nat by lia. cbn. tauto.
    + destruct j as [|[|j]]; [exists 1%nat|exists 0%nat|lia]; cbn; tauto.
  - cbn. intuition congruence.
  - intros x y. cbn [arg_joined]. unfold together. split.
    + intros (i & Hx & Hy). cbn in Hx, Hy.
      destruct x as [|[|x]], y as [|[|y]]; cbn in Hx, Hy; try congruence; [exists 0%nat|exists 1%nat];
        (split; eexists; (split; [reflexivity|cbn; tauto])).
    + intros (i & (c & Hc & Hx) & (d & Hd & Hy)). cbn in Hc, Hd. assert (c = d) by congruence. subst d.
      destruct i as [|[|[|i]]]; cbn in Hc; try congruence; injection Hc as <-; cbn in Hx, Hy;
        destruct Hx as [<-|[]], Hy as [<-|[]]; [exists 1%nat|exists 0%nat]; split; reflexivity.
Qed.

(** * C69: the average *)
Definition is_sample (idx : list nat) (k m : nat) : Prop :=
  NoDup idx /\ length idx = k /\ forall i, In i idx -> (i < m)%nat.
Theorem C69_average : forall V cls ns idx, (2 <= length V)%nat -> Forall (partition_of V) cls ->
  let k := num_samples_used ns (length cls) in
  (0 < k)%nat -> is_sample idx k (length cls * (length cls - 1) / 2) ->
  exists d, avg_nvi idx cls = Some d /\ 0 <= d <= 1 /\
    (ns = None -> (d = 0 <-> forall P Q, In P cls -> In Q cls -> same_clustering P Q)).
Proof.
  intros V cls ns idx HV HF k Hk (I1 & I2 & I3). rewrite <- pairs_of_length in I3.
  set (S := select_from 0 idx (pairs_of cls)).
  assert (LS : length S = k).
  { unfold S. rewrite select_from_length; [exact I2|exact I1|]. intros i Hi. specialize (I3 i Hi). lia. }
  assert (HNE : S <> []) by (intros E; rewrite E in LS; cbn in LS; lia).
  exists (sumR (fun pq => nvi_val V (fst pq) (snd pq)) S / INR (length S)). split; [now apply avg_nvi_spec|].
  assert (Hk' : 0 < INR k) by now apply lt_0_INR.
  assert (HS : forall pq, In pq S -> covers V (fst pq) /\ covers V (snd pq)).
  { intros pq Hp. apply select_from_In, pairs_of_In in Hp. rewrite Forall_forall in HF.
    split; apply partition_covers, HF; tauto. }
  assert (HB : forall pq, In pq S -> 0 <= nvi_val V (fst pq) (snd pq) <= 1).
  { intros pq Hp. destruct (HS pq Hp) as [C1 C2]. apply (nvi_metric V HV (fst pq) (snd pq) (snd pq)); assumption. }
  rewrite LS. split.
  - split.
    + apply Rmult_le_pos; [apply sumR_nonneg; intros; now apply HB|]. now apply Rlt_le, Rinv_0_lt_compat.
    + apply Rmult_le_reg_r with (INR k); [assumption|]. unfold Rdiv. rewrite Rmult_assoc, Rinv_l by lra.
      rewrite Rmult_1_r, Rmult_1_l, <- LS, <- (Rmult_1_r (INR (length S))), <- sumR_const. apply sumR_le. intros; now apply HB.
  - intros ->. unfold k, num_samples_used in *. rewrite <- pairs_of_length in *.
    assert (ES : S = pairs_of cls).
    { unfold S. apply select_from_all. intros i Hi.
      assert (HP : Permutation idx (seq 0 (length (pairs_of cls)))).
      { apply NoDup_Permutation_bis; [exact I1|rewrite seq_length; lia|]. intros j Hj. apply in_seq. specialize (I3 j Hj). lia. }
      apply (Permutation_in i (Permutation_sym HP)), in_seq. lia. }
    split.
    + intros E. assert (Z : sumR (fun pq => nvi_val V (fst pq) (snd pq)) S = 0).
      { apply Rmult_eq_reg_r with (/ INR (length (pairs_of cls))); [rewrite Rmult_0_l; exact E|]. apply Rinv_neq_0_compat. lra. }
      rewrite sumR_zero_iff in Z by (intros; now apply HB).
      apply pairs_of_all; [intros P HP x y; reflexivity|intros; now apply same_sym|].
      rewrite <- ES. intros pq Hp. specialize (Z pq Hp). destruct (HS pq Hp) as [C1 C2].
      apply (nvi_metric V HV (fst pq) (snd pq) (snd pq)) in Z; assumption.
    + intros E. replace (sumR (fun pq => nvi_val V (fst pq) (snd pq)) S) with 0; [unfold Rdiv; lra|].
      symmetry. apply sumR_zero_iff; [intros; now apply HB|]. intros pq Hp. destruct (HS pq Hp) as [C1 C2].
      apply (nvi_metric V HV (fst pq) (snd pq) (snd pq)); try assumption.
      rewrite ES in Hp. apply pairs_of_In in Hp. apply E; tauto.
Qed.
(** the number of samples asked of [np.random.choice] is never too large *)
Theorem C69_samples_exist : forall ns m, exists idx, is_sample idx (num_samples_used ns m) (m * (m - 1) / 2).
Proof.
  intros ns m. exists (seq 0 (num_samples_used ns m)). split; [apply seq_NoDup|]. split; [apply seq_length|].
  intros i Hi. apply in_seq in Hi. unfold num_samples_used in Hi. destruct ns; lia.
Qed.
Example C69_applies : is_sample [2; 0]%nat (num_samples_used (Some 2%nat) 3) (3 * (3 - 1) / 2).
Proof.
  cbn. split; [repeat (constructor; [cbn; lia|]); constructor|]. split; [reflexivity|]. intros i [<-|[<-|[]]]; lia.
Qed.

(** * C108: the values of compute_parallel_nvi *)
Lemma pairs_of_map {A B} (f : A -> B) l : pairs_of (map f l) = map (fun pq => (f (fst pq), f (snd pq))) (pairs_of l).
Proof. induction l as [|a l IH]; [reflexivity|]. cbn [map pairs_of]. rewrite IH, map_app, !map_map. reflexivity. Qed.
Lemma select_from_map {A B} (f : A -> B) idx l : forall i, select_from i idx (map f l) = map f (select_from i idx l).
Proof. induction l as [|a l IH]; intros i; [reflexivity|]. cbn [map select_from]. rewrite IH. destruct (memb i idx); reflexivity. Qed.
Lemma select_from_NoDup {A} idx (l : list A) : NoDup l -> forall i, NoDup (select_from i idx l).
Proof.
  induction 1 as [|a l Ha Hl IH]; intros i; [constructor|]. cbn [select_from]. destruct (memb i idx); [|apply IH]. constructor; [|apply IH].
  intros Hin. apply Ha. now apply select_from_In in Hin.
Qed.
Lemma pairs_of_seq k : forall s, NoDup (pairs_of (seq s k)) /\ forall p, In p (pairs_of (seq s k)) <-> (s <= fst p < snd p /\ snd p < s + k)%nat.
Proof.
  induction k as [|k IH]; intros s; [split; [constructor|]; intros [i j]; cbn; lia|]. cbn [seq pairs_of]. destruct (IH (S s)) as [H1 H2].
  assert (Hin : forall p, In p (map (fun b => (s, b)) (seq (S s) k)) <-> (fst p = s /\ s < snd p < s + S k)%nat).
  { intros [i j]. rewrite in_map_iff. cbn [fst snd]. split.
    - intros (b & [= -> ->] & Hb). apply in_seq in Hb. lia.
    - intros [-> Hj]. exists j. split; [reflexivity|]. apply in_seq. lia. }
  split.
  - apply NoDup_app_iff. split; [|split].
    + apply FinFun.Injective_map_NoDup; [intros a b [= ->]; reflexivity|apply seq_NoDup].
    + exact H1.
    + intros p Hp Hq. apply Hin in Hp. apply H2 in Hq. lia.
  - intros [i j]. rewrite in_app_iff, Hin, H2. cbn [fst snd]. lia.
Qed.
Theorem C108_pairs : forall V cls ns idx, (2 <= length V)%nat -> Forall (partition_of V) cls ->
  let k := num_samples_used ns (length cls) in
  is_sample idx k (length cls * (length cls - 1) / 2) ->
  exists vs ijs, parallel_nvi idx cls (length V) = Some vs /\ length vs = k /\ NoDup ijs /\
    (forall i j, In (i, j) ijs -> (i < j < length cls)%nat) /\
    Forall2 (fun v ij => norm_var_information (AList (nth (fst ij) cls [])) (AList (nth (snd ij) cls [])) None = Some v /\ 0 <= v <= 1) vs ijs /\
    (ns = None -> forall i j, (i < j < length cls)%nat -> In (i, j) ijs).
Proof.
  intros V cls ns idx HV HF k (I1 & I2 & I3). rewrite <- pairs_of_length in I3. set (n := length cls) in *.
  set (at_ := fun i => nth i cls []). assert (Ec : cls = map at_ (seq 0 n)) by (symmetry; apply map_nth_seq).
  set (ijs := select_from 0 idx (pairs_of (seq 0 n))). destruct (pairs_of_seq n 0) as [N1 N2].
  assert (ES : select_from 0 idx (pairs_of cls) = map (fun ij => (at_ (fst ij), at_ (snd ij))) ijs) by (rewrite Ec at 1; now rewrite pairs_of_map, select_from_map).
  assert (EL : length (pairs_of (seq 0 n)) = length (pairs_of cls)) by (rewrite Ec at 1; rewrite pairs_of_map, map_length; reflexivity).
  assert (Hr : forall ij, In ij ijs -> (fst ij < snd ij < n)%nat).
  { intros ij H. apply select_from_In in H. apply N2 in H. lia. }
  assert (Hp : forall i, (i < n)%nat -> partition_of V (at_ i)).
  { intros i Hi. rewrite Forall_forall in HF. apply HF, nth_In. exact Hi. }
  exists (map (fun ij => nvi_val V (at_ (fst ij)) (at_ (snd ij))) ijs), ijs. split; [|split; [|split; [|split; [|split]]]].
  - unfold parallel_nvi. rewrite ES, map_map. cbn [fst snd]. apply all_some_map. intros ij H. specialize (Hr ij H).
    cbn [norm_var_information to_list]. apply nvi_lists_spec; auto; apply Hp; lia.
  - rewrite map_length. unfold ijs. rewrite select_from_length; [exact I2|exact I1|]. intros i Hi. specialize (I3 i Hi). lia.
  - apply select_from_NoDup, N1.
  - intros i j H. exact (Hr _ H).
  - assert (HI : forall l, (forall ij, In ij l -> (fst ij < snd ij < n)%nat) -> Forall2 (fun v ij => norm_var_information (AList (nth (fst ij) cls [])) (AList (nth (snd ij) cls [])) None = Some v /\ 0 <= v <= 1)
        (map (fun ij => nvi_val V (at_ (fst ij)) (at_ (snd ij))) l) l).
    { induction l as [|ij l IH]; intros Hl; cbn [map]; constructor; [|apply IH; intros; apply Hl; now right].
      specialize (Hl ij (or_introl eq_refl)). assert (P1 : partition_of V (at_ (fst ij))) by (apply Hp; lia). assert (P2 : partition_of V (at_ (snd ij))) by (apply Hp; lia).
      split; [cbn [norm_var_information to_list]; now apply nvi_lists_spec; auto|].
      apply (nvi_metric V HV (at_ (fst ij)) (at_ (snd ij)) (at_ (snd ij))); now apply partition_covers. }
    apply HI, Hr.
  - intros -> i j Hij. unfold ijs. rewrite select_from_all; [apply N2; cbn [fst snd]; lia|]. intros a Ha. rewrite EL in Ha. unfold k, num_samples_used in *. unfold n in I2. rewrite <- pairs_of_length in I2. fold n in I2.
    assert (HP : Permutation idx (seq 0 (length (pairs_of cls)))).
    { apply NoDup_Permutation_bis; [exact I1|rewrite seq_length; lia|]. intros b Hb. apply in_seq. specialize (I3 b Hb). lia. }
    apply (Permutation_in a (Permutation_sym HP)), in_seq. lia.
Qed.
(** their mean is the average returned by avg_norm_var_information for the same sample *)
Theorem C108_mean : forall idx cls vs d, parallel_nvi idx cls (length (concat (hd [] cls))) = Some vs ->
  avg_nvi idx cls = Some d -> d = fold_right Rplus 0 vs / INR (length vs).
Proof.
  intros idx cls vs d HP HA. unfold avg_nvi in HA. unfold parallel_nvi in HP. cbn [norm_var_information to_list] in HP.
  replace (total_len (hd [] cls)) with (length (concat (hd [] cls))) in HA.
  - rewrite HP in HA. destruct (nonempty vs); [|discriminate]. now injection HA as <-.
  - symmetry. apply total_len_concat.
Qed.
Example C108_applies : Forall (partition_of [0; 1; 2]%nat) [[[0; 1]; [2]]; [[0]; [1; 2]]; [[0; 1; 2]]]%nat /\
  is_sample [2; 0]%nat (num_samples_used (Some 2%nat) 3) (3 * (3 - 1) / 2).
Proof.
  split; [|exact C69_applies]. assert (HN : NoDup [0; 1; 2]%nat) by (repeat (constructor; [cbn; lia|]); constructor).
  repeat constructor; try exact HN; try apply Permutation_refl; cbn; intuition discriminate.
Qed.

Print Assumptions C108_pairs.
Print Assumptions C108_mean.
Print Assumptions C16_metric.
Print Assumptions C17_early_exit.
Print Assumptions C17_vectors.
Print Assumptions C17_merge.
Print Assumptions C18_nmi.
Print Assumptions C18_trivial.
Print Assumptions C67_mat_partial.
Print Assumptions C67_parallel_refuted.
Print Assumptions C67_parallel_partial.
Print Assumptions C68_refuted.
Print Assumptions C68_forms_partial.
Print Assumptions C68_nmi.
Print Assumptions C69_average.
Print Assumptions C69_samples_exist.
