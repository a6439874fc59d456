(** Properties C102-C107: connected components, repeated and parallel searches, clusterings of flow integrals. *)
From Verif Require Import Base PartitionModel PartitionSpec PartitionProofs LouvainModel LouvainSpec LouvainProofs
  EventsModel EventsSpec TransModel TransSpec MatProofs SparseModel SparseSpec SparseProofs AutocovModel AutocovSpec AutocovProofs
  AutocovProps SparseLouvainModel SparseLouvainSpec SparseLouvainProofs FlowModel FlowSpec FlowProofs FlowGridProofs FlowProps StaticModel StaticSpec StaticProofs StaticProps
  MultiModel MultiSpec MultiProofs.

Definition same_order : list nat -> list nat := fun l => l.
Definition by_number : nat -> nat -> nat -> list nat := fun _ _ n => seq 0 n.
Lemma same_order_ok : is_iteration_order same_order.
Proof. intros l. apply Permutation_refl. Qed.
Lemma by_number_ok : shuffles by_number.
Proof. intros level k n. apply Permutation_refl. Qed.

(** ** C102: nodes of different components are never merged *)
Definition C102_statement : Prop := forall setord orders n p1 T thr nmeta nsub c q k,
  is_iteration_order setord -> shuffles orders -> 0 < n -> distribution n p1 -> stochastic n T ->
  dense_init n (Some p1) None (Some T) None None = Some c ->
  find_louvain setord orders (d_T c) (d_S c) thr nmeta nsub (part_default n) = LDone q k ->
  forall x y, together q x y -> linked n T x y.

Lemma linked_ident n x y : linked n ident x y -> x = y.
Proof.
  induction 1 as [x y (_ & _ & H)|x|x y H IH|x y z H1 IH1 H2 IH2]; try congruence.
  unfold ident in H. destruct (Nat.eqb_spec x y); [assumption|]. exfalso. revert H. qlra.
Qed.
(** all walkers start at node 0: S is zero, everything is put together *)
Theorem C102_lonely_start_refuted : ~ C102_statement.
Proof.
  intros H. set (p := fun i : nat => if i =? 0 then 1%num else 0%num).
  assert (Hd : distribution 2 p).
  { split; [intros i Hi; unfold p; destruct (i =? 0); vm_compute; discriminate|]. vm_compute. now apply Qc_is_canon. }
  assert (Hi : dense_init 2 (Some p) None (Some ident) None None = Some (mkDense 2 p (vec_mat 2 p ident) ident (trimmed None (compute_S p (vec_mat 2 p ident) ident)))).
  { unfold dense_init. rewrite rows_ok_one; [reflexivity|]. intros i Hi. exact (proj2 (stochastic_ident 2) i Hi). }
  assert (HZ : S_is_zero 2 (trimmed None (compute_S p (vec_mat 2 p ident) ident)) = true) by (vm_compute; reflexivity).
  assert (HL := find_louvain_zero same_order by_number ident (trimmed None (compute_S p (vec_mat 2 p ident) ident)) eps 2 2 (part_default 2) ltac:(cbn; lia) HZ).
  assert (HT : together (full_partition 2) 0 1) by (exists 0; split; exists [0; 1]; cbn; auto).
  specialize (H same_order by_number 2 p ident eps 2 2 _ _ _ same_order_ok by_number_ok (Nat.lt_0_succ 1) Hd (stochastic_ident 2) Hi HL 0 1 HT).
  apply linked_ident in H. discriminate.
Qed.
Print Assumptions C102_lonely_start_refuted.

Theorem C102_not_zero_partial : forall setord orders n T M thr nmeta nsub q k,
  is_iteration_order setord -> shuffles orders -> 0 < n -> has_out_flow n T -> S_is_zero n M = false ->
  find_louvain setord orders T M thr nmeta nsub (part_default n) = LDone q k ->
  forall x y, together q x y -> linked n T x y.
Proof. intros setord orders n T M thr nmeta nsub q k H1 H2 H3 [H4 _] H6 H7. eapply find_louvain_linked; eassumption. Qed.
Print Assumptions C102_not_zero_partial.

Lemma arrivals_sum n p T : distribution n p -> stochastic n T -> sumN n (vec_mat n p T) = 1%num.
Proof.
  intros [_ Hp] [_ HT]. unfold vec_mat. rewrite (sumN_swap n n (fun j i => (p i * T i j)%num)).
  rewrite <- Hp. apply sumN_ext. intros i Hi. rewrite sumN_scal_l. assert (E := HT i Hi). change (sumN n (fun k => T i k)) with (sumN n (T i)). rewrite E. ring.
Qed.
Lemma qn_pos n : 0 < n -> (0 < qn n)%num.
Proof. intros H. rewrite <- qn_0. now apply qn_lt. Qed.
Lemma uniform_distribution n : 0 < n -> distribution n (fun _ => 1 / qn n)%num.
Proof.
  intros Hn. assert (Hp := qn_pos n Hn). split.
  - intros i _. apply qdiv_nonneg; [qlra|exact Hp].
  - unfold sumN. rewrite sumL_const, seq_length. field. now apply qneq_pos.
Qed.
Lemma sumN_le_const n f b : (forall k, k < n -> (f k <= b)%num) -> (sumN n f <= qn n * b)%num.
Proof.
  intros H. unfold sumN. apply Qcle_trans with (sumL (fun _ : nat => b) (seq 0 n)).
  - apply sumL_le. intros k Hk. apply H. now apply seq_In_iff.
  - rewrite sumL_const, seq_length. apply Qcle_refl.
Qed.
(** every node equally likely at the start: true without exception *)
Theorem C102_uniform : forall setord orders n T thr nmeta nsub c q k,
  is_iteration_order setord -> shuffles orders -> 0 < n -> stochastic n T ->
  dense_init n None None (Some T) None None = Some c ->
  find_louvain setord orders (d_T c) (d_S c) thr nmeta nsub (part_default n) = LDone q k ->
  forall x y, together q x y -> linked n T x y.
Proof.
  intros setord orders n T thr nmeta nsub c q k Hso Hsh Hn HS Hi HL x y Hxy.
  assert (Hnn := qn_pos n Hn).
  unfold dense_init in Hi. destruct (rows_ok n T); [|discriminate]. injection Hi as <-. cbn [d_T d_S] in HL.
  set (p := fun _ : nat => (1 / qn n)%num) in *. set (M := trimmed None (compute_S p (vec_mat n p T) T)) in *.
  destruct (S_is_zero n M) eqn:HZ.
  2:{ eapply find_louvain_linked; try eassumption. apply HS. }
  rewrite find_louvain_zero in HL by assumption. injection HL as <- _.
  assert (Hx : x < n /\ y < n).
  { assert (Hv := full_partition_valid n Hn). destruct Hxy as (cl & Ha & Hb). change n with (num_nodes (full_partition n)).
    destruct Ha as (l & El & Ha), Hb as (l' & El' & Hb). split; [exact (cluster_members_error _ _ _ Hv El x Ha)|exact (cluster_members_error _ _ _ Hv El' y Hb)]. }
  destruct Hx as [Hx Hy].
  assert (Hk : exists m, m < n /\ (0 < T x m)%num /\ (0 < T y m)%num).
  { destruct (existsb (fun m => qltb 0%num (T x m) && qltb 0%num (T y m))%bool (seq 0 n)) eqn:Ee.
    - apply existsb_exists in Ee. destruct Ee as (m & Hm & E). apply seq_In_iff in Hm. exists m. split; [exact Hm|].
      apply Bool.andb_true_iff in E. destruct E as [E1 E2]. split; [revert E1|revert E2].
      + destruct (qltb_spec 0%num (T x m)); [auto|discriminate].
      + destruct (qltb_spec 0%num (T y m)); [auto|discriminate].
    - exfalso. rewrite S_is_zero_spec in HZ. set (b := (qf 1 1000000 / qn n)%num).
      assert (Hall : forall m, m < n -> (vec_mat n p T m <= b)%num).
      { intros m Hm. assert (E0 : T x m = 0%num \/ T y m = 0%num).
        { assert (E1 : (qltb 0%num (T x m) && qltb 0%num (T y m))%bool = false).
          { destruct (qltb 0%num (T x m) && qltb 0%num (T y m))%bool eqn:E1; [|reflexivity]. rewrite <- Ee. symmetry. apply existsb_exists. exists m. split; [now apply seq_In_iff|exact E1]. }
          assert (Gx := proj1 HS x m Hx Hm). assert (Gy := proj1 HS y m Hy Hm).
          apply Bool.andb_false_iff in E1. destruct E1 as [E1|E1]; [left|right]; revert E1.
          - destruct (qltb_spec 0%num (T x m)) as [|Hno]; [discriminate|]. intros _. apply Qcle_antisym; [now apply Qcnot_lt_le|exact Gx].
          - destruct (qltb_spec 0%num (T y m)) as [|Hno]; [discriminate|]. intros _. apply Qcle_antisym; [now apply Qcnot_lt_le|exact Gy]. }
        assert (Hz : forall i, i < n -> T i m = 0%num -> (vec_mat n p T m <= b)%num).
        { intros i Hi E. specialize (HZ i m Hi Hm). apply qabs_bounds in HZ. destruct HZ as [HZ _]. unfold M, trimmed, compute_S in HZ. rewrite E in HZ. unfold p at 1 2 in HZ.
          replace (qf 1 1000000 / qn (n * n))%num with (1 / qn n * b)%num in HZ by (unfold b; rewrite qn_mult; field; now apply qneq_pos).
          apply Qcnot_lt_le. intros Hlt. apply (Qclt_not_le _ _ HZ). clear HZ.
          assert (Hip : (0 < 1 / qn n)%num) by (unfold Qcdiv; rewrite Qcmult_1_l; now apply qinv_pos).
          assert (Hd : (0 < vec_mat n p T m - b)%num) by (revert Hlt; qlra). assert (Hmu := qmult_pos _ _ Hip Hd).
          replace (1 / qn n * 0 - 1 / qn n * vec_mat n p T m)%num with (- (1 / qn n * b) - (1 / qn n * (vec_mat n p T m - b)))%num by ring.
          revert Hmu. generalize (1 / qn n * (vec_mat n p T m - b))%num (1 / qn n * b)%num. intros u v. qlra. }
        destruct E0 as [E0|E0]; [exact (Hz x Hx E0)|exact (Hz y Hy E0)]. }
      assert (Hs := sumN_le_const n _ b Hall). rewrite (arrivals_sum n p T (uniform_distribution n Hn) HS) in Hs.
      replace (qn n * b)%num with (qf 1 1000000) in Hs by (unfold b; field; now apply qneq_pos). revert Hs. vm_compute. auto. }
  destruct Hk as (m & Hm & H1 & H2). apply rst_trans with m; [apply rst_step; auto|apply rst_sym, rst_step; auto].
Qed.
Print Assumptions C102_uniform.

(** two pairs of nodes *)
Definition pairs102 : mat := LouvainSpec.of_rows [[qf 1 2; qf 1 2; 0; 0]; [qf 1 2; qf 1 2; 0; 0]; [0; 0; qf 1 4; qf 3 4]; [0; 0; qf 3 4; qf 1 4]]%num.
Lemma pairs102_stochastic : stochastic 4 pairs102.
Proof.
  split.
  - intros i j Hi Hj. do 4 (destruct i as [|i]; [do 4 (destruct j as [|j]; [vm_compute; discriminate|]); lia|]). lia.
  - intros i Hi. do 4 (destruct i as [|i]; [vm_compute; now apply Qc_is_canon|]). lia.
Qed.
Example C102_applies : exists c q, dense_init 4 None None (Some pairs102) None None = Some c /\ S_is_zero 4 (d_S c) = false /\
  find_louvain same_order by_number (d_T c) (d_S c) eps 5 5 (part_default 4) = LDone q 2 /\ together q 0 1 /\ together q 2 3 /\
  ~ linked 4 pairs102 0 2 /\ stochastic 4 pairs102.
Proof.
  assert (E : rows_ok 4 pairs102 = true) by (apply rows_ok_one; intros i Hi; exact (proj2 pairs102_stochastic i Hi)).
  unfold dense_init. rewrite E. eexists _, _. split; [reflexivity|]. cbn [d_S d_T]. split; [vm_compute; reflexivity|]. split; [vm_compute; reflexivity|].
  split; [exists 0; split; eexists; (split; [reflexivity|cbn; auto])|]. split; [exists 1; split; eexists; (split; [reflexivity|cbn; auto])|].
  split; [|exact pairs102_stochastic].
  assert (H : forall x y, linked 4 pairs102 x y -> x <? 2 = (y <? 2)).
  { induction 1 as [x y (Hx & Hy & H)|x|x y H IH|x y z H1 IH1 H2 IH2]; try congruence.
    do 4 (destruct x as [|x]; [do 4 (destruct y as [|y]; [first [reflexivity|vm_compute in H; discriminate]|]); lia|]). lia. }
  intros Hl. apply H in Hl. discriminate.
Qed.

(** ** C103: [run_multi_louvain] *)
Definition C103_statement : Prop := forall setord rng c opt seeds r,
  is_iteration_order setord -> (forall s, shuffles (rng s)) -> made c ->
  run_multi (dense_repetition setord rng c opt) seeds = Some r ->
  m_seeds r = seeds /\ forall i, i < length seeds ->
    found setord rng c (o_thr opt) (o_meta opt) (o_sub opt) (nth i seeds 0) (nth i (m_loops r) 0) (nth i (m_clusters r) []).

Definition two_generators : nat -> nat -> nat -> nat -> list nat := fun s _ _ n => if s =? 0 then seq 0 n else rev (seq 0 n).
Lemma two_generators_ok : forall s, shuffles (two_generators s).
Proof. intros s level k n. unfold two_generators. destruct (s =? 0); [apply Permutation_refl|apply Permutation_sym, Permutation_rev]. Qed.
Definition path103 : dense := mkDense 3 (fun _ => qf 1 3) (fun _ => qf 1 3) (fun _ _ => qf 1 3)
  (LouvainSpec.of_rows [[0; 1; - (2)]; [1; 0; 1]; [- (2); 1; 0]]%num).
Lemma path103_made : made path103.
Proof.
  split; [|split; [cbn; lia|]].
  - exists (Some (d_p1 path103)), (Some (d_p2 path103)), (Some (d_T path103)), (Some (d_S path103)), None.
    unfold dense_init. cbn [d_n]. rewrite rows_ok_one; [reflexivity|]. intros i Hi. vm_compute. now apply Qc_is_canon.
  - split; intros; vm_compute; congruence.
Qed.
(** with [rnd_seed] among the keyword arguments the reported seeds are not used *)
Theorem C103_rnd_seed_refuted : ~ C103_statement.
Proof.
  intros H. assert (E : exists r, run_multi (dense_repetition same_order two_generators path103 (mkOptions eps 5 5 (Some 1))) [0] = Some r /\ m_clusters r = [[[0]; [1; 2]]]).
  { unfold run_multi. cbn [map]. unfold dense_repetition, dense_init.
    rewrite rows_ok_one by (intros i Hi; vm_compute; now apply Qc_is_canon). eexists. split; [vm_compute; reflexivity|reflexivity]. }
  destruct E as (r & E & Ec). destruct (H same_order two_generators path103 _ [0] r same_order_ok two_generators_ok path103_made E) as [_ H0].
  destruct (H0 0 (Nat.lt_0_succ 0)) as (q & Hq & Eq). rewrite Ec in Eq. cbn [nth] in Eq.
  assert (Hn : forall q' k', find_louvain same_order (two_generators 0) (d_T path103) (d_S path103) eps 5 5 (part_default 3) = LDone q' k' -> cluster_list q' <> [[0]; [1; 2]]).
  { intros q' k' E'. vm_compute in E'. injection E' as <- _. discriminate. }
  apply (Hn _ _ Hq). exact Eq.
Qed.
Print Assumptions C103_rnd_seed_refuted.

Lemma made_copy c : made c -> dense_init (d_n c) (Some (d_p1 c)) (Some (d_p2 c)) (Some (d_T c)) (Some (d_S c)) None = Some c.
Proof.
  intros ((p1 & p2 & T & M & thr & E) & Hn & _). destruct c as [n q1 q2 T' M']. cbn [d_n d_p1 d_p2 d_T d_S] in *.
  assert (HR : rows_ok n T' = true).
  { unfold dense_init in E. destruct T as [T|].
    - destruct (rows_ok n T) eqn:HR; [|discriminate]. injection E as _ _ <- _. exact HR.
    - destruct M as [M|]; [|discriminate]. injection E as _ _ <- _. apply rows_ok_one. intros i _. exact (proj2 (uniform_distribution n Hn)). }
  unfold dense_init. rewrite HR. reflexivity.
Qed.
Lemma run_multi_some (rep : nat -> option result) seeds r i : run_multi rep seeds = Some r -> i < length seeds ->
  rep (nth i seeds 0) = Some (nth i (m_loops r) 0, nth i (m_clusters r) [], nth i (m_stabilities r) 0%num).
Proof.
  unfold run_multi. destruct (all_some (map rep seeds)) as [l|] eqn:E; [|discriminate]. intros H. injection H as <-. cbn [m_loops m_clusters m_stabilities].
  revert l i E. induction seeds as [|s seeds IH]; intros l i E Hi; [cbn in Hi; lia|]. cbn in E. destruct (rep s) as [[[k cl] x]|] eqn:Es; [|discriminate].
  destruct (all_some (map rep seeds)) as [l'|] eqn:E'; [|discriminate]. injection E as <-. destruct i as [|i]; cbn [map nth fst snd].
  - exact Es.
  - apply (IH l'); [reflexivity|cbn in Hi; lia].
Qed.
Lemma run_multi_total (rep : nat -> option result) f seeds : (forall s, rep s = Some (f s)) ->
  run_multi rep seeds = Some (mkMulti (map (fun s => fst (fst (f s))) seeds) (map (fun s => snd (fst (f s))) seeds) (map (fun s => snd (f s)) seeds) seeds).
Proof.
  intros H. unfold run_multi. rewrite (all_some_map _ f) by (intros; apply H). now rewrite !map_map.
Qed.

Theorem C103_own_seeds_partial : forall setord rng c opt seeds r,
  made c -> o_seed opt = None ->
  run_multi (dense_repetition setord rng c opt) seeds = Some r ->
  m_seeds r = seeds /\ forall i, i < length seeds ->
    found setord rng c (o_thr opt) (o_meta opt) (o_sub opt) (nth i seeds 0) (nth i (m_loops r) 0) (nth i (m_clusters r) []).
Proof.
  intros setord rng c opt seeds r Hm Ho HR. split.
  { revert HR. unfold run_multi. destruct (all_some _); [|discriminate]. now intros [= <-]. }
  intros i Hi. assert (E := run_multi_some _ _ _ i HR Hi). unfold dense_repetition in E. rewrite (made_copy c Hm) in E.
  unfold dense_search, orders_used in E. rewrite Ho in E.
  destruct (find_louvain setord (rng (nth i seeds 0)) (d_T c) (d_S c) (o_thr opt) (o_meta opt) (o_sub opt) (part_default (d_n c))) as [q k| |] eqn:F; try discriminate.
  injection E as <- <- _. exists q. split; [exact F|reflexivity].
Qed.
Print Assumptions C103_own_seeds_partial.

Lemma search_total setord orders n T M thr nmeta nsub : is_iteration_order setord -> shuffles orders -> 0 < n -> has_out_flow n T ->
  exists q k, find_louvain setord orders T M thr nmeta nsub (part_default n) = LDone q k /\ valid q /\ no_empty (cluster_list q) /\ num_nodes q = n /\
    (S_is_zero n M = false -> (stability M (part_default n) <= stability M q)%num).
Proof.
  intros Hso Hsh Hn HT. destruct (S_is_zero n M) eqn:HZ.
  - rewrite find_louvain_zero by assumption. exists (full_partition n), 0. change (num_nodes (part_default n)) with n.
    assert (Hv := full_partition_valid _ Hn). split; [reflexivity|]. split; [exact Hv|]. split; [|split; [reflexivity|discriminate]].
    rewrite full_partition_clusters by exact Hn. constructor; [|constructor]. destruct n; [lia|discriminate].
  - destruct (find_louvain_default setord orders T M thr nmeta nsub n Hso Hsh Hn HZ HT) as (q & k & E & Hv & Hne & Hq & Hle).
    exists q, k. auto.
Qed.
Lemma repetition_total setord rng c opt s : is_iteration_order setord -> (forall s, shuffles (rng s)) -> made c ->
  exists q k, dense_repetition setord rng c opt s = Some (k, cluster_list q, stability (d_S c) q) /\ valid q /\ no_empty (cluster_list q) /\ num_nodes q = d_n c /\
    (S_is_zero (d_n c) (d_S c) = false -> (stability (d_S c) (part_default (d_n c)) <= stability (d_S c) q)%num).
Proof.
  intros Hso Hsh Hm. unfold dense_repetition. rewrite (made_copy c Hm). destruct Hm as (_ & Hn & HT). unfold dense_search.
  destruct (search_total setord (orders_used rng opt s) (d_n c) (d_T c) (d_S c) (o_thr opt) (o_meta opt) (o_sub opt) Hso (Hsh _) Hn HT) as (q & k & E & Hv & HH).
  rewrite E. exists q, k. rewrite stability_spec by exact Hv. auto.
Qed.
(** one valid clustering per repetition, with its stability, never worse than singletons *)
Theorem C103_results : forall setord rng c opt seeds,
  is_iteration_order setord -> (forall s, shuffles (rng s)) -> made c ->
  exists r, run_multi (dense_repetition setord rng c opt) seeds = Some r /\
    length (m_loops r) = length seeds /\ length (m_clusters r) = length seeds /\ length (m_stabilities r) = length seeds /\
    forall i, i < length seeds -> exists q, valid q /\ no_empty (cluster_list q) /\ num_nodes q = d_n c /\
      nth i (m_clusters r) [] = cluster_list q /\ nth i (m_stabilities r) 0%num = stability (d_S c) q /\
      (S_is_zero (d_n c) (d_S c) = false -> (stability (d_S c) (part_default (d_n c)) <= nth i (m_stabilities r) 0)%num).
Proof.
  intros setord rng c opt seeds Hso Hsh Hm.
  assert (HE : exists r, run_multi (dense_repetition setord rng c opt) seeds = Some r /\ length (m_loops r) = length seeds /\ length (m_clusters r) = length seeds /\ length (m_stabilities r) = length seeds).
  { eexists. split; [apply (run_multi_total _ (fun s => match dense_repetition setord rng c opt s with Some x => x | None => (0, [], 0%num) end))|].
    - intros s. destruct (repetition_total setord rng c opt s Hso Hsh Hm) as (q & k & E & _). now rewrite E.
    - cbn [m_loops m_clusters m_stabilities]. now rewrite !map_length. }
  destruct HE as (r & HR & HL). exists r. split; [exact HR|]. split; [apply HL|]. split; [apply HL|]. split; [apply HL|].
  intros i Hi. destruct (repetition_total setord rng c opt (nth i seeds 0) Hso Hsh Hm) as (q & k & E & Hv & Hne & Hq & Hle).
  rewrite (run_multi_some _ _ _ i HR Hi) in E. injection E as _ E2 E3. exists q. rewrite E2, E3. auto 10.
Qed.
Print Assumptions C103_results.
(** with [rnd_seed], repeating finds the same again *)
Theorem C103_rnd_seed_repeats : forall setord rng c opt s seeds r i j,
  o_seed opt = Some s -> run_multi (dense_repetition setord rng c opt) seeds = Some r -> i < length seeds -> j < length seeds ->
  nth i (m_loops r) 0 = nth j (m_loops r) 0 /\ nth i (m_clusters r) [] = nth j (m_clusters r) [] /\ nth i (m_stabilities r) 0%num = nth j (m_stabilities r) 0%num.
Proof.
  intros setord rng c opt s seeds r i j Ho HR Hi Hj. assert (E := run_multi_some _ _ _ i HR Hi). assert (E' := run_multi_some _ _ _ j HR Hj).
  assert (EE : forall a b, dense_repetition setord rng c opt a = dense_repetition setord rng c opt b) by (intros a b; unfold dense_repetition, dense_search, orders_used; now rewrite Ho).
  rewrite (EE _ (nth j seeds 0)), E' in E. injection E as -> -> ->. auto.
Qed.
Print Assumptions C103_rnd_seed_repeats.
Example C103_applies : made path103 /\ S_is_zero 3 (d_S path103) = false /\
  option_map m_clusters (run_multi (dense_repetition same_order two_generators path103 (mkOptions eps 5 5 None)) [0; 1]) = Some [[[0; 1]; [2]]; [[0]; [1; 2]]].
Proof.
  split; [exact path103_made|]. split; [vm_compute; reflexivity|].
  unfold run_multi. cbn [map]. unfold dense_repetition, dense_init. rewrite rows_ok_one by (intros i Hi; vm_compute; now apply Qc_is_canon). vm_compute. reflexivity.
Qed.

(** ** C104: [compute_parallel_clustering], dense *)
Definition C104_statement : Prop := forall setord rng c n_meta n_sub seeds r,
  is_iteration_order setord -> (forall s, shuffles (rng s)) -> made c ->
  run_multi (dense_repetition setord rng c (worker_options n_meta n_sub)) seeds = Some r ->
  parallel_dense setord rng c n_meta n_sub seeds = Some (m_clusters r, m_stabilities r, m_seeds r).
(** no repetition: run_multi_louvain returns empty lists, compute_parallel_clustering raises *)
Theorem C104_no_repetition_refuted : ~ C104_statement.
Proof. intros H. specialize (H same_order two_generators path103 5 5 [] _ same_order_ok two_generators_ok path103_made eq_refl). discriminate. Qed.
Print Assumptions C104_no_repetition_refuted.

Lemma worker_same setord rng c n_meta n_sub s : is_iteration_order setord -> (forall s, shuffles (rng s)) -> made c ->
  dense_worker setord rng (d_n c) (flat (d_n c) (d_S c)) (flat (d_n c) (d_T c)) (vector (d_n c) (d_p1 c)) (vector (d_n c) (d_p2 c)) n_meta n_sub s
  = match dense_repetition setord rng c (worker_options n_meta n_sub) s with Some (k, cl, x) => Some (cl, x, s) | None => None end.
Proof.
  intros Hso Hsh Hm. unfold dense_repetition. rewrite (made_copy c Hm). assert (HC := made_copy c Hm). unfold dense_init in HC.
  destruct (rows_ok (d_n c) (d_T c)) eqn:HR; [|discriminate]. clear HC. destruct Hm as (_ & Hn & HT). unfold dense_worker, dense_init.
  assert (ET := reshape_flat (d_n c) (d_T c)). assert (ES := reshape_flat (d_n c) (d_S c)).
  rewrite (rows_ok_ext (d_n c) _ _ ET), HR. unfold dense_search. cbn [d_T d_S].
  change (trimmed None (reshape (d_n c) (flat (d_n c) (d_S c)))) with (reshape (d_n c) (flat (d_n c) (d_S c))).
  rewrite (find_louvain_ext setord Hso (orders_used rng (worker_options n_meta n_sub) s) _ (d_T c) _ (d_S c) _ _ _ (Hsh _) (d_n c) ET ES).
  destruct (search_total setord (orders_used rng (worker_options n_meta n_sub) s) (d_n c) (d_T c) (d_S c)
    (o_thr (worker_options n_meta n_sub)) (o_meta (worker_options n_meta n_sub)) (o_sub (worker_options n_meta n_sub)) Hso (Hsh _) Hn HT) as (q & k & E & Hv & _ & Hq & _).
  rewrite E. now rewrite (compute_stability_ext (d_n c) _ _ q Hv Hq ES).
Qed.
Lemma all_some_ext {A B} (f g : A -> option B) l : (forall a, In a l -> f a = g a) -> all_some (map f l) = all_some (map g l).
Proof. intros H. f_equal. now apply map_ext_in. Qed.
Lemma unzip_runs (rep : nat -> option result) seeds l : all_some (map rep seeds) = Some l ->
  all_some (map (fun s => match rep s with Some (k, cl, x) => Some (cl, x, s) | None => None end) seeds)
  = Some (map (fun rs => (snd (fst (fst rs)), snd (fst rs), snd rs)) (combine l seeds)) /\ length l = length seeds.
Proof.
  revert l. induction seeds as [|s seeds IH]; intros l; cbn; [intros [= <-]; auto|].
  destruct (rep s) as [[[k cl] x]|]; [|discriminate]. destruct (all_some (map rep seeds)) as [l'|]; [|discriminate]. intros [= <-].
  destruct (IH l' eq_refl) as [-> HL]. cbn. auto.
Qed.
Lemma combine_parts {A} (l : list A) (s : list nat) {B} (f : A -> B) : length l = length s ->
  map (fun rs => f (fst rs)) (combine l s) = map f l /\ map snd (combine l s) = s.
Proof. revert s. induction l as [|a l IH]; intros [|b s] H; try discriminate; [auto|]. cbn. injection H as H. destruct (IH s H) as [-> ->]. auto. Qed.
Lemma unzip_multi (rep : nat -> option result) seeds r : seeds <> [] -> run_multi rep seeds = Some r ->
  exists l, all_some (map (fun s => match rep s with Some (k, cl, x) => Some (cl, x, s) | None => None end) seeds) = Some l /\
    unzip3 l = Some (m_clusters r, m_stabilities r, m_seeds r).
Proof.
  intros Hne. unfold run_multi. destruct (all_some (map rep seeds)) as [l|] eqn:E; [|discriminate]. intros [= <-].
  destruct (unzip_runs rep seeds l E) as [-> HL]. eexists. split; [reflexivity|]. cbn [m_clusters m_stabilities m_seeds].
  assert (Hl : l <> []) by (destruct l, seeds; try discriminate; contradiction). unfold unzip3.
  destruct (combine l seeds) as [|b bs] eqn:Ec; [destruct l, seeds; try discriminate; contradiction|]. cbn [map]. 
  assert (E1 := proj1 (combine_parts l seeds (fun r => snd (fst r)) HL)). assert (E2 := proj1 (combine_parts l seeds snd HL)). assert (E3 := proj2 (combine_parts l seeds snd HL)).
  rewrite Ec in E1, E2, E3. rewrite !map_map. cbn [fst snd]. cbn [map] in E1, E2, E3. f_equal. f_equal; [f_equal|]; assumption.
Qed.
(** with at least one repetition, the workers find what a serial run finds *)
Theorem C104_same_as_serial_partial : forall setord rng c n_meta n_sub seeds r,
  is_iteration_order setord -> (forall s, shuffles (rng s)) -> made c -> seeds <> [] ->
  run_multi (dense_repetition setord rng c (worker_options n_meta n_sub)) seeds = Some r ->
  parallel_dense setord rng c n_meta n_sub seeds = Some (m_clusters r, m_stabilities r, m_seeds r).
Proof.
  intros setord rng c n_meta n_sub seeds r Hso Hsh Hm Hne HR. unfold parallel_dense.
  rewrite (all_some_ext _ (fun s => match dense_repetition setord rng c (worker_options n_meta n_sub) s with Some (k, cl, x) => Some (cl, x, s) | None => None end))
    by (intros s _; now apply worker_same).
  destruct (unzip_multi _ seeds r Hne HR) as (l & -> & E). exact E.
Qed.
Print Assumptions C104_same_as_serial_partial.
(** hence one valid clustering per worker, each the one of its seed *)
Theorem C104_results : forall setord rng c n_meta n_sub seeds,
  is_iteration_order setord -> (forall s, shuffles (rng s)) -> made c -> seeds <> [] ->
  exists cls xs, parallel_dense setord rng c n_meta n_sub seeds = Some (cls, xs, seeds) /\ length cls = length seeds /\ length xs = length seeds /\
    forall i, i < length seeds -> exists q k, find_louvain setord (rng (nth i seeds 0)) (d_T c) (d_S c) eps n_meta n_sub (part_default (d_n c)) = LDone q k /\
      cluster_list q = nth i cls [] /\ nth i xs 0%num = compute_stability (d_S c) q.
Proof.
  intros setord rng c n_meta n_sub seeds Hso Hsh Hm Hne.
  destruct (C103_results setord rng c (worker_options n_meta n_sub) seeds Hso Hsh Hm) as (r & HR & HL1 & HL2 & HL3 & _).
  assert (HP := C104_same_as_serial_partial setord rng c n_meta n_sub seeds r Hso Hsh Hm Hne HR).
  destruct (C103_own_seeds_partial setord rng c (worker_options n_meta n_sub) seeds r Hm eq_refl HR) as [Es Hf]. rewrite Es in HP.
  exists (m_clusters r), (m_stabilities r). split; [exact HP|]. split; [exact HL2|]. split; [exact HL3|]. intros i Hi.
  assert (E := run_multi_some _ _ _ i HR Hi). unfold dense_repetition in E. rewrite (made_copy c Hm) in E. unfold dense_search, orders_used in E. cbn [worker_options o_seed o_thr o_meta o_sub] in E.
  destruct (find_louvain setord (rng (nth i seeds 0)) (d_T c) (d_S c) eps n_meta n_sub (part_default (d_n c))) as [q k| |] eqn:F; try discriminate.
  injection E as _ <- <-. exists q, k. auto.
Qed.
Print Assumptions C104_results.
Example C104_applies : made path103 /\ exists r, run_multi (dense_repetition same_order two_generators path103 (worker_options 5 5)) [1; 0] = Some r /\
  m_clusters r = [[[0]; [1; 2]]; [[0; 1]; [2]]].
Proof.
  split; [exact path103_made|]. unfold run_multi. cbn [map]. unfold dense_repetition, dense_init.
  rewrite rows_ok_one by (intros i Hi; vm_compute; now apply Qc_is_canon). eexists. split; [vm_compute; reflexivity|reflexivity].
Qed.

(** ** C105: [compute_parallel_clustering], sparse *)
Definition C105_statement : Prop := forall setord rng n PT p sym A p1 p2 T c n_meta n_sub seeds r,
  is_iteration_order setord -> (forall s, shuffles (rng s)) -> 0 < n -> usable n PT p sym A -> seeds <> [] ->
  sparse_init p1 p2 T A = Some c ->
  run_multi (sparse_repetition setord rng c (worker_options n_meta n_sub)) seeds = Some r ->
  parallel_sparse setord rng c n_meta n_sub seeds = Some (m_clusters r, m_stabilities r, m_seeds r).

Definition fair2 : list num := [qf 1 2; qf 1 2].
Definition flow105 : csr := mkCsr [qf 5 16; qf 3 16; qf 3 16; qf 5 16] [0; 1; 0; 1] [0; 2; 4].
Definition fair3 : list num := [qf 1 3; qf 1 3; qf 1 3].
Definition cycle105 : csr := mkCsr [qf 1 6; qf 1 8; qf 1 24; qf 1 24; qf 1 6; qf 1 8; qf 1 8; qf 1 24; qf 1 6] [0; 1; 2; 0; 1; 2; 0; 1; 2] [0; 3; 6; 9].
Definition one_generator : nat -> nat -> nat -> nat -> list nat := fun _ => by_number.
Lemma one_generator_ok : forall s, shuffles (one_generator s).
Proof. intros s. exact by_number_ok. Qed.
Lemma flow105_usable : exists A, ac_init flow105 (PVec fair2 fair2) true = Some A /\ usable 2 flow105 (PVec fair2 fair2) true A.
Proof.
  eexists. split; [reflexivity|]. split; [|split; [|split]].
  - split; [csr_ok_tac|]. split; [|reflexivity]. intros _ i j Hi Hj. destruct i as [|[|i]], j as [|[|j]]; try lia; num_compute.
  - norep_tac 2.
  - split; num_compute.
  - split; intros; repeat match goal with H : ?i < 2 |- _ => destruct i as [|[|i]]; [clear H|clear H|lia] end; vm_compute; congruence.
Qed.
Lemma cycle105_usable : exists A, ac_init cycle105 (PVec fair3 fair3) false = Some A /\ usable 3 cycle105 (PVec fair3 fair3) false A.
Proof.
  eexists. split; [reflexivity|]. split; [|split; [|split]].
  - split; [csr_ok_tac|]. split; [discriminate|reflexivity].
  - norep_tac 3.
  - split; num_compute.
  - split; intros; repeat match goal with H : ?i < 3 |- _ => destruct i as [|[|[|i]]]; [clear H|clear H|clear H|lia] end; vm_compute; congruence.
Qed.
(** the clustering of a flow integral is made without p2, which the constructor then computes
    from S.PT: the workers use it although S has its own *)
Theorem C105_flow_integral_refuted : ~ C105_statement.
Proof.
  intros H. destruct flow105_usable as (A & EA & HU).
  assert (E : exists c r, sparse_init fair2 None None A = Some c /\ run_multi (sparse_repetition same_order one_generator c (worker_options 5 5)) [0] = Some r /\
    m_clusters r = [[[0]; [1]]] /\ option_map (fun x => fst (fst x)) (parallel_sparse same_order one_generator c 5 5 [0]) = Some [[[0; 1]]]).
  { injection EA as <-. eexists _, _. split; [vm_compute; reflexivity|]. split; [vm_compute; reflexivity|]. split; [reflexivity|vm_compute; reflexivity]. }
  destruct E as (c & r & E1 & E2 & E3 & E4). 
  rewrite (H same_order one_generator 2 _ _ _ A _ _ _ c 5 5 [0] r same_order_ok one_generator_ok (Nat.lt_0_succ 1) HU ltac:(discriminate) E1 E2) in E4.
  cbn in E4. rewrite E3 in E4. discriminate.
Qed.
Print Assumptions C105_flow_integral_refuted.
(** the same vectors, but PT is not symmetric *)
Theorem C105_asymmetric_refuted : ~ (forall setord rng n PT p1 p2 sym A T c n_meta n_sub seeds r,
  is_iteration_order setord -> (forall s, shuffles (rng s)) -> 0 < n -> usable n PT (PVec p1 p2) sym A -> seeds <> [] ->
  sparse_init p1 (Some p2) T A = Some c ->
  run_multi (sparse_repetition setord rng c (worker_options n_meta n_sub)) seeds = Some r ->
  parallel_sparse setord rng c n_meta n_sub seeds = Some (m_clusters r, m_stabilities r, m_seeds r)).
Proof.
  intros H. destruct cycle105_usable as (A & EA & HU).
  assert (E : exists c r, sparse_init fair3 (Some fair3) None A = Some c /\ run_multi (sparse_repetition same_order one_generator c (worker_options 5 5)) [0] = Some r /\
    m_clusters r = [[[0]; [1]; [2]]] /\ option_map (fun x => fst (fst x)) (parallel_sparse same_order one_generator c 5 5 [0]) = Some [[[1]; [0; 2]]]).
  { injection EA as <-. eexists _, _. split; [vm_compute; reflexivity|]. split; [vm_compute; reflexivity|]. split; [reflexivity|vm_compute; reflexivity]. }
  destruct E as (c & r & E1 & E2 & E3 & E4). 
  rewrite (H same_order one_generator 3 _ _ _ _ A _ c 5 5 [0] r same_order_ok one_generator_ok (Nat.lt_0_succ 2) HU ltac:(discriminate) E1 E2) in E4.
  cbn in E4. rewrite E3 in E4. discriminate.
Qed.
Print Assumptions C105_asymmetric_refuted.
(** PT said to be symmetric, and the vectors of S given *)
Theorem C105_symmetric_partial : forall setord rng n PT p1 p2 A T c n_meta n_sub seeds r,
  0 < n -> usable n PT (PVec p1 p2) true A -> seeds <> [] ->
  sparse_init p1 (Some p2) T A = Some c ->
  run_multi (sparse_repetition setord rng c (worker_options n_meta n_sub)) seeds = Some r ->
  parallel_sparse setord rng c n_meta n_sub seeds = Some (m_clusters r, m_stabilities r, m_seeds r).
Proof.
  intros setord rng n PT p1 p2 A T c n_meta n_sub seeds r Hn [HB HU] Hne HI HR.
  assert (HC := ac_copy_id n PT (PVec p1 p2) true A HB).
  unfold sparse_init in HI. destruct (csr_size _ =? a_size A); [|discriminate]. rewrite HC in HI. injection HI as <-. unfold parallel_sparse. cbn [s_A s_p1 s_p2].
  assert (Ep : a_p A = PVec p1 p2 /\ a_sym A = true).
  { destruct HB as (_ & _ & Hi). unfold ac_init in Hi. destruct (_ && _)%bool; [|discriminate]. injection Hi as <-. auto. }
  destruct Ep as [Ep Es]. assert (HC' : ac_init (a_PT A) (PVec p1 p2) true = Some A) by (rewrite <- Ep, <- Es; exact HC).
  rewrite (all_some_ext _ (fun s => match sparse_repetition setord rng (mkSparse p1 p2 A) (worker_options n_meta n_sub) s with Some (k, cl, x) => Some (cl, x, s) | None => None end)).
  - destruct (unzip_multi _ seeds r Hne HR) as (l & -> & E). exact E.
  - intros s _. unfold sparse_worker. rewrite HC'. unfold sparse_repetition, sparse_init. cbn [s_p1 s_p2 s_A]. rewrite HC.
    change (csr_size (a_PT A)) with (a_size A). rewrite Nat.eqb_refl. cbn [s_A].
    destruct (sparse_search _ _ _ _ _ _) as [[k q]|]; reflexivity.
Qed.
Print Assumptions C105_symmetric_partial.
Example C105_applies : exists A c r, usable 2 flow105 (PVec fair2 fair2) true A /\ sparse_init fair2 (Some fair2) None A = Some c /\
  run_multi (sparse_repetition same_order one_generator c (worker_options 5 5)) [0; 3] = Some r /\ m_clusters r = [[[0]; [1]]; [[0]; [1]]].
Proof.
  destruct flow105_usable as (A & EA & HU). exists A. injection EA as <-. eexists _, _. split; [exact HU|]. split; [vm_compute; reflexivity|].
  split; [vm_compute; reflexivity|reflexivity].
Qed.

(** ** C106: [FlowIntegralClustering.find_louvain_clustering], first call *)
Definition untouched : fstate := mkF [] [].
(** the search uses the k-th integral, an average over some first m steps, and the transition
    over the same steps; it finishes *)
Definition finds_kth setord rng n TL TI p1 tl r F k opt seed S_threshold : Prop := exists m loops q,
  eqm n (nth k (f_I F) ident) (flow_average n TL TI p1 tl r m) /\
  flow_find setord rng n F k opt seed None S_threshold untouched = (mkF [k] [(k, q)], Loops loops) /\
  valid q /\ no_empty (cluster_list q) /\ num_nodes q = n /\
  forall M, small_removed n S_threshold (nth k (f_I F) ident) M ->
  S_is_zero n M = false -> (stability M (part_default n) <= stability M q)%num /\
    forall x y, together q x y -> linked n (flow_transition n TL TI r (m - 1)) x y.
Definition C106_statement : Prop := forall setord rng n TL TI p1 tl g r F k opt seed S_threshold,
  is_iteration_order setord -> (forall s, shuffles (rng s)) -> 0 < n ->
  distribution_ok n p1 -> times_ok tl -> all_stochastic n TL TI ->
  flow_integral n Dense TL TI p1 tl g r None = Some F -> k < length (f_I F) ->
  finds_kth setord rng n TL TI p1 tl r F k opt seed S_threshold.

(** the grid starts after the first time: one integral per grid time, but the last one raises *)
Theorem C106_late_grid_refuted : ~ C106_statement.
Proof.
  intros H.
  assert (E : exists F, flow_integral 2 Dense None (Some [half; half]) None (Some times47) (Some [qn 1; qn 2]) false None = Some F /\ length (f_I F) = 2 /\ f_k F = [1; 2]).
  { eexists. split; [reflexivity|]. split; vm_compute; reflexivity. }
  destruct E as (F & E & EL & Ek).
  destruct (H same_order one_generator 2 None (Some [half; half]) None (Some times47) (Some [qn 1; qn 2]) false F 1 (mkOptions eps 5 5 None) 0 None
    same_order_ok one_generator_ok (Nat.lt_0_succ 1)) as (m & loops & q & _ & E1 & _).
  - cbn. lia.
  - exact times47_ok.
  - intros B [<-|[<-|[]]]; exact half_stochastic.
  - exact E.
  - rewrite EL. auto.
  - unfold flow_find in E1. cbn [memb existsb fs_clustering untouched] in E1. rewrite Ek in E1. cbn in E1. discriminate.
Qed.
Print Assumptions C106_late_grid_refuted.

(** a grid of times of the flow, in its order, from its start *)
Definition grid_from_start (r : bool) (ts : list num) (g : option (list num)) : Prop :=
  match g with
  | None => True
  | Some g => nth 0 g 0%num = nth 0 ts 0%num /\ g <> [] /\ incl g ts /\
      forall a b, a < b -> b < length g -> flows_before r (nth a g 0%num) (nth b g 0%num) /\ nth a g 0%num <> nth b g 0%num
  end.
Lemma diffs_nth l d : In d (diffs l) -> exists k, S k < length l /\ d = (nth (S k) l 0 - nth k l 0)%num.
Proof.
  induction l as [|a l IH]; [intros []|]. destruct l as [|b l]; [intros []|]. cbn [diffs]. intros [<-|H].
  - exists 0. cbn. split; [lia|reflexivity].
  - destruct (IH H) as (k & Hk & ->). exists (S k). cbn [length] in *. split; [lia|reflexivity].
Qed.
Lemma orient_ordered r g : (forall a b, a < b -> b < length g -> flows_before r (nth a g 0%num) (nth b g 0%num) /\ nth a g 0%num <> nth b g 0%num) ->
  orient r g = g.
Proof.
  intros H. unfold orient, direction. destruct (diffs g) as [|d0 ds] eqn:E; [reflexivity|]. set (d := d0 :: ds) in *.
  assert (Hl : (0 < qn (length d))%num) by (apply qn_pos; cbn; lia).
  assert (Hd : forall x, In x d -> if r then (x <= 0)%num else (0 <= x)%num).
  { intros x Hx. rewrite <- E in Hx. destruct (diffs_nth _ _ Hx) as (k & Hk & ->). destruct (H k (S k) (Nat.lt_succ_diag_r k) Hk) as [Hf _].
    destruct r; cbn [flows_before] in Hf; revert Hf; qlra. }
  destruct r; cbn [andb negb orb].
  - assert (Hs : (0 <= - sumL (fun x => x) d)%num) by (rewrite <- sumL_opp; apply sumL_nonneg; intros x Hx; specialize (Hd x Hx); cbn in Hd; revert Hd; qlra).
    destruct (qltb_spec 0%num (sumL (fun x => x) d / qn (length d))%num) as [Hc|]; [|reflexivity]. exfalso.
    assert (Hq := qdiv_nonneg _ _ Hs Hl). replace (- sumL (fun x => x) d / qn (length d))%num with (- (sumL (fun x => x) d / qn (length d)))%num in Hq by (field; now apply qneq_pos).
    revert Hq Hc. generalize (sumL (fun x => x) d / qn (length d))%num. qlra.
  - assert (Hs : (0 <= sumL (fun x => x) d)%num) by (apply sumL_nonneg; intros x Hx; exact (Hd x Hx)).
    destruct (qltb_spec (sumL (fun x => x) d / qn (length d))%num 0%num) as [Hc|]; [|reflexivity]. exfalso.
    assert (Hq := qdiv_nonneg _ _ Hs Hl). apply (Qclt_not_le _ _ Hc Hq).
Qed.
Lemma stored_tail ms len : StronglySorted Nat.lt (0 :: ms) -> stored (0 :: ms) 0 len = filter (fun m => m <=? len) ms.
Proof.
  intros H. inversion H as [|? ? H1 H2]; subst. apply sorted_same; [apply stored_sorted|now apply filter_sorted|]. intros m. rewrite stored_in, filter_In, Nat.leb_le. rewrite Forall_forall in H2. split.
  - intros ([->|Hm] & H3 & H4); [lia|auto].
  - intros [Hm H4]. split; [now right|]. split; [exact (H2 m Hm)|exact H4].
Qed.
Lemma filter_prefix ms len k m : StronglySorted Nat.lt ms -> nth_error (filter (fun m => m <=? len) ms) k = Some m -> nth_error ms k = Some m.
Proof.
  intros H. revert k. induction H as [|a l H IH HF]; intros k; [auto|]. cbn [filter]. destruct (Nat.leb_spec a len) as [Ha|Ha].
  - destruct k as [|k]; [auto|]. cbn. apply IH.
  - assert (E : filter (fun m => m <=? len) l = []).
    { rewrite Forall_forall in HF. clear IH H. induction l as [|b l IH]; [reflexivity|]. cbn. assert (Hb : a < b) by (apply HF; now left).
      destruct (Nat.leb_spec b len); [lia|]. apply IH. intros x Hx. apply HF. now right. }
    rewrite E. destruct k; discriminate.
Qed.
Lemma place_exact r ts t : directed r ts -> In t ts -> place r ts t < length ts /\ nth (place r ts t) ts 0%num = t.
Proof.
  intros Hd Ht. assert (Hne : ts <> []) by (destruct ts; [destruct Ht|discriminate]). destruct (place_spec r ts t Hd Hne) as (H1 & H2 & _). split; [exact H1|].
  rewrite H2. unfold snap. destruct (existsb (qeqb t) ts) eqn:E; [reflexivity|]. exfalso. assert (existsb (qeqb t) ts = true); [|congruence].
  apply existsb_exists. exists t. split; [exact Ht|]. destruct (qeqb_spec t t); [reflexivity|contradiction].
Qed.
Lemma directed_strict r ts a b : directed r ts -> a < length ts -> b < length ts -> flows_before r (nth a ts 0%num) (nth b ts 0%num) -> nth a ts 0%num <> nth b ts 0%num -> a < b.
Proof.
  intros Hd Ha Hb Hf Hn. destruct (Nat.lt_total a b) as [H|[->|H]]; [exact H|contradiction|]. exfalso.
  destruct r; cbn [directed flows_before] in *; specialize (Hd b a H Ha); exact (Qclt_not_le _ _ Hd Hf).
Qed.
Lemma sorted_from_nth (f : num -> nat) g : (forall a b, a < b -> b < length g -> f (nth a g 0%num) < f (nth b g 0%num)) -> StronglySorted Nat.lt (map f g).
Proof.
  induction g as [|x g IH]; intros H; cbn [map]; constructor.
  - apply IH. intros a b Hab Hb. apply (H (S a) (S b)); cbn [length]; lia.
  - apply Forall_forall. intros y Hy. apply in_map_iff in Hy. destruct Hy as (t & <- & Ht). destruct (In_nth _ _ 0%num Ht) as (k & Hk & <-).
    apply (H 0 (S k)); cbn [length]; lia.
Qed.
Lemma grid_positions r ts g kg tg len k m : directed r ts -> ts <> [] -> grid_from_start r ts g -> time_grid r ts g = Some (kg, tg) ->
  nth_error (stored kg 0 len) k = Some m -> nth_error kg (S k) = Some m.
Proof.
  intros Hd Hne Hg EG Hk. destruct g as [g|].
  - destruct Hg as (H0 & Hgne & Hi & Ho). rewrite (time_grid_some r ts g Hd Hne), (orient_ordered r g Ho) in EG. injection EG as <- _.
    assert (HP : forall t, In t g -> place r ts t < length ts /\ nth (place r ts t) ts 0%num = t) by (intros t Ht; apply place_exact; [exact Hd|now apply Hi]).
    assert (HS : StronglySorted Nat.lt (map (place r ts) g)).
    { apply sorted_from_nth. intros a b Hab Hb. destruct (HP _ (nth_In g 0%num Hb)) as [B1 B2]. assert (Ha : a < length g) by lia.
      destruct (HP _ (nth_In g 0%num Ha)) as [A1 A2]. destruct (Ho a b Hab Hb) as [O1 O2]. apply (directed_strict r ts _ _ Hd A1 B1); rewrite A2, B2; assumption. }
    destruct g as [|t g]; [contradiction|]. cbn [map] in *. assert (E0 : place r ts t = 0).
    { destruct (HP t (or_introl eq_refl)) as [T1 T2]. cbn in H0. rewrite H0 in T2 at 2. destruct (place r ts t) as [|j]; [reflexivity|]. exfalso.
      destruct r; cbn [directed] in Hd; specialize (Hd 0 (S j) (Nat.lt_0_succ j) T1); rewrite T2 in Hd; exact (Qclt_not_le _ _ Hd (Qcle_refl _)). }
    rewrite E0 in *. rewrite stored_tail in Hk by exact HS. cbn [nth_error]. inversion HS; subst. eapply filter_prefix; eassumption.
  - injection EG as <- _. destruct (Nat.eq_dec (length ts - 1) 0) as [E|E].
    + rewrite E in Hk. apply nth_error_In in Hk. apply stored_in in Hk. destruct Hk as ([<-|[<-|[]]] & H & _); lia.
    + assert (HS : StronglySorted Nat.lt [0; length ts - 1]) by (repeat constructor; lia). rewrite stored_tail in Hk by exact HS. cbn [nth_error].
      inversion HS; subst. eapply filter_prefix; eassumption.
Qed.
Lemma small_removed_eqm n thr A B : small_removed n thr A B -> eqm n B (trimmed thr A).
Proof.
  intros H i j Hi Hj. specialize (H i j Hi Hj). unfold trimmed. destruct thr as [x|]; [|exact H]. destruct H as [H1 H2].
  destruct (qltb_spec (qabs (A i j)) x) as [Hx|Hx]; [now apply H1|]. apply H2. now apply Qcnot_lt_le.
Qed.
Theorem C106_from_start_partial : forall setord rng n TL TI p1 tl g r F k opt seed S_threshold,
  is_iteration_order setord -> (forall s, shuffles (rng s)) -> 0 < n ->
  distribution_ok n p1 -> times_ok tl -> all_stochastic n TL TI -> grid_from_start r (flow_times TL TI tl r) g ->
  flow_integral n Dense TL TI p1 tl g r None = Some F -> k < length (f_I F) ->
  finds_kth setord rng n TL TI p1 tl r F k opt seed S_threshold.
Proof.
  intros setord rng n TL TI p1 tl g r F k opt seed thr Hso Hsh Hn Hp Ht HS Hg HF Hk.
  destruct (flow_stored _ _ _ _ _ _ _ _ _ _ HS HF) as (Ts & kg & tg & ES & HL & Hne & EG & Ek & _ & _ & ET & EI).
  set (ts := flow_times TL TI tl r) in *. assert (Hd := flow_times_directed TL TI tl r Ht). fold ts in Hd.
  destruct (source_facts n Dense TL TI r Ts HS ES) as [_ HT].
  destruct (nth_error (stored kg 0 (steps_in TL TI tl)) k) as [m|] eqn:Em.
  2:{ exfalso. apply nth_error_None in Em. rewrite EI, map_length in Hk. lia. }
  assert (Hm := proj1 (stored_in _ _ _) (nth_error_In _ _ Em)). destruct Hm as (_ & Hm0 & Hm1). assert (Hpos := grid_positions r ts g kg tg _ k m Hd Hne Hg EG Em).
  set (I := integral_at n Dense None (the_distribution n p1) Ts ts) in *.
  assert (EIk : nth_error (f_I F) k = Some (I m)) by (rewrite EI; now apply map_nth_error).
  assert (Hmt : m - 1 < length Ts) by (unfold steps_in in Hm1; lia).
  destruct (HT (m - 1) Hmt) as [HTs HTe]. set (T := nth (m - 1) Ts ident) in *.
  assert (ETm : at_before (f_T F) m = Some T).
  { rewrite ET. unfold T. destruct m as [|m]; [lia|]. cbn [at_before Nat.sub] in *. rewrite Nat.sub_0_r in *. now apply nth_error_nth'. }
  assert (Hrow : rows_ok n T = true) by (apply rows_ok_one; intros i Hi; exact (proj2 HTs i Hi)).
  assert (Hout : has_out_flow n T).
  { split; [exact (proj1 HTs)|]. intros i Hi. assert (E := proj2 HTs i Hi). rewrite E. qcompute. }
  set (M := trimmed thr (I m)).
  destruct (search_total setord (orders_used rng opt seed) n T M (o_thr opt) (o_meta opt) (o_sub opt) Hso (Hsh _) Hn Hout) as (q & loops & E & Hv & Hqe & Hq & Hle).
  exists m, loops, q. rewrite (nth_error_nth _ _ ident EIk). split; [now apply integral_at_average; try (left; reflexivity)|].
  split.
  { unfold flow_find. cbn [memb existsb fs_clustering fs_partition untouched]. rewrite Ek, Hpos, EIk, ETm. unfold dense_init. rewrite Hrow. unfold dense_search. cbn [d_T d_S]. fold M. rewrite E. reflexivity. }
  split; [exact Hv|]. split; [exact Hqe|]. split; [exact Hq|]. intros M' HM' HZ. assert (EM : eqm n M' M) by now apply small_removed_eqm.
  assert (HZ' : S_is_zero n M = false) by now rewrite <- (S_is_zero_ext M' M n EM).
  assert (Est : forall r, num_nodes r = n -> stability M' r = stability M r).
  { intros r0 Hr0. unfold stability. rewrite Hr0. apply sumN_ext. intros i Hi. apply sumN_ext. intros j Hj. now rewrite (EM i j Hi Hj). }
  split; [rewrite !Est by (try exact Hq; reflexivity); now apply Hle|]. intros x y Hxy.
  assert (HLk : linked n T x y) by (eapply find_louvain_linked; try eassumption; [apply Hsh|exact (proj1 Hout)]).
  clear - HLk HTe. induction HLk as [x y (Hx & Hy & H)|x|x y H IH|x y z H1 IH1 H2 IH2].
  - apply rst_step. split; [exact Hx|]. split; [exact Hy|]. now rewrite <- (HTe x y Hx Hy).
  - apply rst_refl.
  - now apply rst_sym.
  - eapply rst_trans; eassumption.
Qed.
Print Assumptions C106_from_start_partial.
Example C106_applies : exists F, flow_integral 2 Dense None (Some [half; ident]) None (Some times47) (Some [qn 0; qn 1; qn 2]) false None = Some F /\ length (f_I F) = 2 /\
  all_stochastic 2 None (Some [half; ident]) /\ times_ok (Some times47) /\ distribution_ok 2 None /\
  grid_from_start false (flow_times None (Some [half; ident]) (Some times47) false) (Some [qn 0; qn 1; qn 2]).
Proof.
  eexists. split; [reflexivity|]. split; [vm_compute; reflexivity|]. split; [intros B [<-|[<-|[]]]; [exact half_stochastic|apply stochastic_ident]|].
  split; [exact times47_ok|]. split; [cbn; lia|]. split; [reflexivity|]. split; [discriminate|]. split; [intros x Hx; exact Hx|].
  intros a b Hab Hb. cbn [length] in Hb. destruct b as [|[|[|b]]]; try lia; destruct a as [|[|a]]; try lia; split; vm_compute; discriminate.
Qed.

(** ** C107: later calls *)
(** a call finds what it finds on a new object, whatever was computed before *)
Definition C107_statement : Prop := forall setord rng n F k opt opt' seed seed' cl cl' thr thr',
  is_iteration_order setord -> (forall s, shuffles (rng s)) ->
  let st := fst (flow_find setord rng n F k opt' seed' cl' thr' untouched) in
  snd (flow_find setord rng n F k opt seed cl thr st) = snd (flow_find setord rng n F k opt seed cl thr untouched).
(** a clustering that is said to be computed can be read *)
Definition C107_available_statement : Prop := forall setord rng n F k opt opt' seed seed' cl cl' thr thr',
  is_iteration_order setord -> (forall s, shuffles (rng s)) ->
  let st := fst (flow_find setord rng n F k opt' seed' cl' thr' untouched) in
  snd (flow_find setord rng n F k opt seed cl thr st) = Nothing -> exists q, In (k, q) (fs_partition st).

Definition merge107 : mat := LouvainSpec.of_rows [[1; 0; 0]; [0; qf 1 2; qf 1 2]; [0; qf 1 2; qf 1 2]]%num.
Definition lost107 : mat := LouvainSpec.of_rows [[0; 0; 0]; [0; qf 1 2; qf 1 2]; [0; qf 1 2; qf 1 2]]%num.
(** the second call says that it is already computed, and returns None *)
Theorem C107_second_call_refuted : ~ C107_statement.
Proof.
  intros H.
  assert (E : exists F, flow_integral 3 Dense (Some [merge107]) None None None None false None = Some F) by (eexists; reflexivity).
  destruct E as (F & E). specialize (H same_order one_generator 3 F 0 (mkOptions eps 5 5 None) (mkOptions eps 5 5 None) 0 0 None None None None same_order_ok one_generator_ok).
  injection E as <-. vm_compute in H. discriminate.
Qed.
Print Assumptions C107_second_call_refuted.
(** node 0 disappears: the search raises (C56), the next call says that the clustering exists *)
Theorem C107_after_exception_refuted : ~ C107_available_statement.
Proof.
  intros H.
  assert (E : exists F, flow_integral 3 Dense (Some [lost107]) None None None None false None = Some F) by (eexists; reflexivity).
  destruct E as (F & E). specialize (H same_order one_generator 3 F 0 (mkOptions eps 5 5 None) (mkOptions eps 5 5 None) 0 0 None None None None same_order_ok one_generator_ok).
  injection E as <-. cbv zeta in H.
  match type of H with _ -> exists q, In _ (fs_partition (fst ?x)) => assert (E1 : fs_partition (fst x) = []) by (vm_compute; reflexivity); assert (E2 : fs_clustering (fst x) = [0]) by (vm_compute; reflexivity);
    set (st := fst x) in * end.
  clearbody st. destruct H as (q & Hq).
  - unfold flow_find. rewrite E2. reflexivity.
  - rewrite E1 in Hq. exact Hq.
Qed.
Print Assumptions C107_after_exception_refuted.
(** a k not tried before: as on a new object, and nothing else changes *)
Theorem C107_new_k_partial : forall setord rng n F k opt seed cl thr st,
  ~ In k (fs_clustering st) ->
  let st' := fst (flow_find setord rng n F k opt seed cl thr st) in
  snd (flow_find setord rng n F k opt seed cl thr st) = snd (flow_find setord rng n F k opt seed cl thr untouched) /\
  fs_partition st' = fs_partition (fst (flow_find setord rng n F k opt seed cl thr untouched)) ++ fs_partition st /\
  (forall m, snd (flow_find setord rng n F k opt seed cl thr st) = Loops m -> exists q, In (k, q) (fs_partition st')) /\
  (forall k' q, k' <> k -> In (k', q) (fs_partition st') <-> In (k', q) (fs_partition st)).
Proof.
  intros setord rng n F k opt seed cl thr st Hk. unfold flow_find. replace (memb k (fs_clustering st)) with false by (symmetry; now apply memb_false).
  cbn [memb existsb fs_clustering untouched fs_partition].
  destruct (nth_error (f_k F) (S k)) as [e|]; [|cbn; intuition discriminate]. destruct (nth_error (f_I F) k) as [M|]; [|cbn; intuition discriminate].
  destruct (at_before (f_T F) e) as [T|]; [|cbn; intuition discriminate]. destruct (dense_init _ _ _ _ _ _) as [c|]; [|cbn; intuition discriminate].
  destruct (dense_search _ _ _ _ _ _) as [[m q]|]; cbn [fst snd fs_partition fs_clustering].
  - split; [reflexivity|]. split; [reflexivity|]. split; [intros _ _; exists q; now left|]. intros k' q' Hne. split; [intros [[= -> _]|H]; [contradiction|exact H]|intros H; now right].
  - intuition discriminate.
Qed.
Print Assumptions C107_new_k_partial.
(** otherwise nothing happens *)
Theorem C107_repeated_call : forall setord rng n F k opt seed cl thr st,
  In k (fs_clustering st) -> flow_find setord rng n F k opt seed cl thr st = (st, Nothing).
Proof. intros setord rng n F k opt seed cl thr st Hk. unfold flow_find. apply memb_In in Hk. now rewrite Hk. Qed.
Print Assumptions C107_repeated_call.
Example C107_applies : exists F, flow_integral 3 Dense (Some [merge107]) None None None None false None = Some F /\ ~ In 0 (fs_clustering untouched) /\
  snd (flow_find same_order one_generator 3 F 0 (mkOptions eps 5 5 None) 0 None None untouched) = Loops 2 /\
  map (fun kq => (fst kq, cluster_list (snd kq))) (fs_partition (fst (flow_find same_order one_generator 3 F 0 (mkOptions eps 5 5 None) 0 None None untouched))) = [(0, [[0]; [1; 2]])].
Proof. eexists. split; [reflexivity|]. split; [intros []|]. split; vm_compute; reflexivity. Qed.
