(** Proofs about the variation of information of the clusterings of an integral. *)
From Verif Require Import InfoModel.
From Coq Require Import Lra.
From Verif Require Import Base PartitionModel PartitionSpec PartitionProofs LouvainModel SparseModel AutocovModel EventsModel TransModel ClustModel
  InfoSpec InfoProofs InfoNviProofs InfoMoreProofs InfoProps NviModel NviSpec.
Local Open Scope R_scope.

(** * More nodes than are clustered *)
Lemma n_bits_ln N : n_bits N = INR N * ln (INR N) / ln 2.
Proof. unfold n_bits, Rdiv. ring. Qed.
Lemma n_bits_pos N : (2 <= N)%nat -> 0 < n_bits N.
Proof.
  intros H. rewrite n_bits_ln. assert (H2 : INR 2 <= INR N) by now apply le_INR. simpl in H2. pose proof ln2_pos.
  assert (0 < ln (INR N)) by (rewrite <- ln_1; apply ln_increasing; lra). apply Rmult_lt_0_compat; [apply Rmult_lt_0_compat; lra|]. now apply Rinv_0_lt_compat.
Qed.
Lemma vi_val_zero V P Q : covers V P -> covers V Q -> vi_val V P Q = 0 <-> same_clustering P Q.
Proof.
  intros HP HQ. pose proof (rel_equiv V P HP) as EP. pose proof (rel_equiv V Q HQ) as EQ. pose proof (Hc_nonneg V _ _ EP EQ) as H1. pose proof (Hc_nonneg V _ _ EQ EP) as H2. split.
  - intros E. unfold vi_val in E. assert (E1 : Hc V (rel P) (rel Q) = 0) by lra. assert (E2 : Hc V (rel Q) (rel P) = 0) by lra.
    apply (same_rel V P Q HP HQ). intros x y Hx Hy. apply eq_true_iff_eq.
    split; intros F; [apply (proj1 (Hc_zero V _ _ EQ EP) E2)|apply (proj1 (Hc_zero V _ _ EP EQ) E1)]; assumption.
  - intros H. now apply vi_same.
Qed.
Lemma double_sum_val V P Q : covers V P -> covers V Q -> double_sum P Q = vi_val V P Q / ln 2.
Proof. intros HP HQ. rewrite double_sum_vi. now apply vi_sum_val. Qed.
Lemma nvi_general V P Q N : partition_of V P -> partition_of V Q -> (1 <= length V <= N)%nat -> (2 <= N)%nat ->
  nvi_lists P Q (Some N) = Some (double_sum P Q / n_bits N) /\ 0 <= double_sum P Q / n_bits N <= 1 /\ (double_sum P Q / n_bits N = 0 <-> same_clustering P Q).
Proof.
  intros HP HQ HV HN. pose proof (partition_covers _ _ HP) as CP. pose proof (partition_covers _ _ HQ) as CQ.
  pose proof (n_bits_pos N HN) as HB. pose proof ln2_pos as L2. assert (IB : 0 < / n_bits N) by now apply Rinv_0_lt_compat. assert (I2 : 0 < / ln 2) by now apply Rinv_0_lt_compat.
  pose proof (vi_val_zero V P Q CP CQ) as HZ. pose proof (double_sum_val V P Q CP CQ) as HD.
  pose proof (rel_equiv V P CP) as EP. pose proof (rel_equiv V Q CQ) as EQ. pose proof (Hc_nonneg V _ _ EP EQ) as H1. pose proof (Hc_nonneg V _ _ EQ EP) as H2. pose proof (Hc_upper V _ _ EP EQ) as H3.
  assert (D0 : double_sum P Q = 0 <-> vi_val V P Q = 0).
  { rewrite HD. unfold Rdiv. split; intros E; [|rewrite E; lra]. apply Rmult_eq_reg_r with (/ ln 2); [lra|lra]. }
  split; [|split].
  - unfold nvi_lists.
    assert (NE : forall R, partition_of V R -> nonempty R = true).
    { intros R (_ & HR & _). destruct R; [|reflexivity]. apply Permutation_length in HR. simpl in HR. lia. }
    rewrite (NE P HP), (NE Q HQ). cbn [andb].
    destruct (sort_by_min_spec P (proj2 (proj2 HP))) as (s1 & E1 & P1). destruct (sort_by_min_spec Q (proj2 (proj2 HQ))) as (s2 & E2 & P2).
    pose proof (covers_perm V P s1 P1 CP) as C1. pose proof (covers_perm V Q s2 P2 CQ) as C2.
    destruct ((length P =? length Q)%nat && (length Q =? N)%nat) eqn:T.
    + apply andb_prop in T. destruct T as [T1 T2]. apply Nat.eqb_eq in T1, T2.
      assert (LV : forall R, partition_of V R -> (length R <= length V)%nat) by (intros R (_ & HR & HE); rewrite <- (Permutation_length HR); now apply nonempty_count).
      pose proof (LV Q HQ). f_equal. rewrite (proj2 D0); [unfold Rdiv; lra|]. apply HZ. apply (singles_same V); try assumption; lia.
    + rewrite E1, E2. destruct ((length P =? length Q)%nat && sets_eqb s1 s2) eqn:U.
      * apply andb_prop in U. destruct U as [_ U]. apply sets_eqb_same in U.
        f_equal. rewrite (proj2 D0); [unfold Rdiv; lra|]. apply HZ.
        eapply same_trans; [apply same_sym, joined_perm, P1|]. eapply same_trans; [exact U|]. now apply joined_perm.
      * rewrite cython_nvi_spec by (try lia; apply (cover_nodup V s2 C2)). f_equal.
        rewrite (vi_sum_val V) by assumption. rewrite (vi_val_same V s1 s2 P Q) by (try assumption; now apply joined_perm). rewrite <- HD. reflexivity.
  - split; [apply Rmult_le_pos; [rewrite HD; apply Rmult_le_pos; [unfold vi_val; lra|lra]|lra]|].
    apply Rmult_le_reg_r with (n_bits N); [assumption|]. unfold Rdiv at 1. rewrite Rmult_assoc, Rinv_l, Rmult_1_r, Rmult_1_l by lra. rewrite HD, n_bits_ln.
    apply Rmult_le_compat_r; [lra|]. apply Rle_trans with (INR (length V) * ln (INR (length V))); [unfold vi_val; lra|].
    assert (X1 : 1 <= INR (length V)) by (apply (le_INR 1); lia). assert (X2 : INR (length V) <= INR N) by (apply le_INR; lia).
    apply Rmult_le_compat; [lra|apply ln_nonneg; lra|exact X2|apply ln_le_mono; lra].
  - rewrite <- HZ, <- D0. split; intros E; [|rewrite E; unfold Rdiv; lra]. apply Rmult_eq_reg_r with (/ n_bits N); [unfold Rdiv in E; lra|lra].
Qed.
Definition pairs_at (idx : list nat) (m : nat) : list (nat * nat) := select_from 0 idx (InfoModel.pairs_of (seq 0 m)).
Definition value_at (N : nat) (cls : list (list (list nat))) (ij : nat * nat) : R := double_sum (nth (fst ij) cls []) (nth (snd ij) cls []) / n_bits N.
Lemma nvi_mean V cls N ns idx : (1 <= length V <= N)%nat -> (2 <= N)%nat -> Forall (partition_of V) cls -> is_sample idx (num_samples_used ns (length cls)) (length cls * (length cls - 1) / 2) ->
  (0 < num_samples_used ns (length cls))%nat ->
  exists vs ijs, parallel_nvi idx cls N = Some vs /\ vs = map (value_at N cls) ijs /\ length ijs = num_samples_used ns (length cls) /\ NoDup ijs /\ (forall i j, In (i, j) ijs -> (i < j < length cls)%nat) /\
    (ns = None -> forall i j, (i < j < length cls)%nat -> In (i, j) ijs).
Proof.
  intros HV HN HF (I1 & I2 & I3) Hk. rewrite <- pairs_of_length in I3. set (n := length cls) in *.
  set (at_ := fun i => nth i cls []). assert (Ec : cls = map at_ (seq 0 n)) by (symmetry; apply map_nth_seq).
  set (ijs := pairs_at idx n). destruct (pairs_of_seq n 0) as [N1 N2].
  assert (ES : select_from 0 idx (InfoModel.pairs_of cls) = map (fun ij => (at_ (fst ij), at_ (snd ij))) ijs) by (rewrite Ec at 1; now rewrite pairs_of_map, select_from_map).
  assert (EL : length (InfoModel.pairs_of (seq 0 n)) = length (InfoModel.pairs_of cls)) by (rewrite Ec at 1; rewrite pairs_of_map, map_length; reflexivity).
  assert (Hr : forall ij, In ij ijs -> (fst ij < snd ij < n)%nat).
  { intros ij H. apply select_from_In in H. apply N2 in H. lia. }
  assert (Hp : forall i, (i < n)%nat -> partition_of V (at_ i)).
  { intros i Hi. rewrite Forall_forall in HF. apply HF, nth_In. exact Hi. }
  exists (map (value_at N cls) ijs), ijs. split; [|split; [reflexivity|split; [|split; [|split]]]].
  - unfold parallel_nvi. rewrite ES, map_map. cbn [fst snd]. apply all_some_map. intros ij H. specialize (Hr ij H).
    cbn [norm_var_information to_list]. apply (nvi_general V); auto; apply Hp; lia.
  - unfold ijs, pairs_at. rewrite select_from_length; [exact I2|exact I1|]. intros i Hi. specialize (I3 i Hi). lia.
  - apply select_from_NoDup, N1.
  - intros i j H. exact (Hr _ H).
  - intros -> i j Hij. unfold ijs, pairs_at. rewrite select_from_all; [apply N2; cbn [fst snd]; lia|]. intros a Ha. rewrite EL in Ha. unfold num_samples_used in *. unfold n in I2. rewrite <- pairs_of_length in I2. fold n in I2.
    assert (HP : Permutation idx (seq 0 (length (InfoModel.pairs_of cls)))).
    { apply NoDup_Permutation_bis; [exact I1|rewrite seq_length; lia|]. intros b Hb. apply in_seq. specialize (I3 b Hb). lia. }
    apply (Permutation_in a (Permutation_sym HP)), in_seq. lia.
Qed.

Lemma pairs_used_eq asked m : num_samples_used asked m = pairs_used asked m.
Proof. unfold num_samples_used, pairs_used. destruct asked as [k|]; [|reflexivity]. cbv zeta. destruct (Nat.ltb_spec (m * (m - 1) / 2) k); lia. Qed.
Lemma script_pairs asked m : num_varinf_samples asked m = pairs_used asked m.
Proof. unfold num_varinf_samples, pairs_used. destruct asked as [k|]; [|reflexivity]. cbv zeta. destruct (Nat.ltb_spec (m * (m - 1) / 2) k); lia. Qed.
Lemma pairs_some asked m : (2 <= m)%nat -> asked <> Some 0%nat -> (0 < pairs_used asked m)%nat.
Proof.
  intros Hm Ha. assert (1 <= m * (m - 1) / 2)%nat by (apply Nat.div_le_lower_bound; [lia|]; nia). unfold pairs_used. destruct asked as [[|k]|]; [congruence|lia|lia].
Qed.
Lemma sum_bounds l : (forall v, In v l -> 0 <= v <= 1) -> 0 <= fold_right Rplus 0 l <= INR (length l) /\ (fold_right Rplus 0 l = 0 <-> forall v, In v l -> v = 0).
Proof.
  induction l as [|a l IH]; intros H; [cbn; split; [lra|split; [intros _ v []|reflexivity]]|].
  destruct (IH (fun v Hv => H v (or_intror Hv))) as [I1 I2]. pose proof (H a (or_introl eq_refl)) as Ha. cbn [fold_right length]. rewrite S_INR. split; [lra|]. split.
  - intros E v [->|Hv]; [lra|]. apply I2; [lra|exact Hv].
  - intros E. rewrite (E a (or_introl eq_refl)). rewrite (proj2 I2); [lra|]. intros v Hv. apply E. now right.
Qed.
Lemma worker_reports V cls o label A N asked idx : matrix_size o label A = Some N -> (1 <= length V <= N)%nat -> (2 <= N)%nat -> Forall (partition_of V) cls -> (2 <= length cls)%nat -> asked <> Some 0%nat ->
  drawn idx (num_varinf_samples asked (length cls)) (length cls * (length cls - 1) / 2) -> exists v, worker_nvi o label A idx cls = Some v /\ reports asked N cls v.
Proof.
  intros EN HV HN HF Hm Ha Hd. rewrite script_pairs in Hd. pose proof (pairs_some asked _ Hm Ha) as Hk. rewrite <- pairs_used_eq in Hk, Hd.
  destruct (nvi_mean V cls N asked idx HV HN HF Hd Hk) as (vs & ijs & E1 & E2 & Hl & Hnd & Hr & Hall).
  assert (HL : length vs = num_samples_used asked (length cls)) by (now rewrite E2, map_length).
  exists (fold_right Rplus 0 vs / INR (length vs)). split.
  - unfold worker_nvi. rewrite EN, E1. destruct vs as [|v vs]; [cbn in HL; lia|reflexivity].
  - assert (HB : forall v, In v vs -> 0 <= v <= 1).
    { intros v Hv. rewrite E2 in Hv. apply in_map_iff in Hv. destruct Hv as ([i j] & <- & Hij). specialize (Hr i j Hij). unfold value_at. cbn [fst snd].
      rewrite Forall_forall in HF. apply (nvi_general V); try assumption; apply HF, nth_In; lia. }
    destruct (sum_bounds vs HB) as [B1 B2]. assert (HI : 0 < INR (length vs)) by (apply lt_0_INR; lia). assert (HJ : 0 < / INR (length vs)) by now apply Rinv_0_lt_compat.
    split; [|split].
    + exists ijs. rewrite <- pairs_used_eq. split; [exact Hl|]. split; [exact Hnd|]. split; [exact Hr|]. rewrite <- HL, E2. unfold relative_vi, value_at. reflexivity.
    + split; [apply Rmult_le_pos; lra|]. apply Rmult_le_reg_r with (INR (length vs)); [lra|]. unfold Rdiv. rewrite Rmult_assoc, Rinv_l by lra. lra.
    + intros Ea. split.
      * intros E. assert (E0 : fold_right Rplus 0 vs = 0) by (apply Rmult_eq_reg_r with (/ INR (length vs)); [unfold Rdiv in E; lra|lra]). rewrite B2 in E0.
        assert (P0 : forall i j, (i < j < length cls)%nat -> same_clustering (nth i cls []) (nth j cls [])).
        { intros i j Hij. rewrite Forall_forall in HF. apply (nvi_general V _ _ N); try assumption; [apply HF, nth_In; lia|apply HF, nth_In; lia|].
          apply (E0 (value_at N cls (i, j))). rewrite E2. apply in_map. now apply Hall. }
        intros P Q HP HQ. apply (In_nth _ _ []) in HP. destruct HP as (i & Hi & <-). apply (In_nth _ _ []) in HQ. destruct HQ as (j & Hj & <-).
        destruct (Nat.lt_trichotomy i j) as [H|[->|H]]; [apply P0; lia|intros x y; reflexivity|apply same_sym, P0; lia].
      * intros HS. rewrite (proj2 B2); [unfold Rdiv; lra|]. intros v Hv. rewrite E2 in Hv. apply in_map_iff in Hv. destruct Hv as ([i j] & <- & Hij). specialize (Hr i j Hij). unfold value_at. cbn [fst snd].
        rewrite Forall_forall in HF. apply (nvi_general V _ _ N); try assumption; try (apply HF, nth_In; lia). apply HS; apply nth_In; lia.
Qed.
Lemma partitions_of n cl : partitions n cl -> no_empty cl -> partition_of (seq 0 n) cl.
Proof.
  intros H1 H2. split; [apply seq_NoDup|]. split; [now apply partitions_perm|]. intros H. unfold no_empty in H2. rewrite Forall_forall in H2. now apply (H2 []).
Qed.
