(** SparseAutocovMat: properties C28-C31, C61-C63. *)
From Verif Require Import Base PartitionModel PartitionSpec SparseModel SparseSpec SparseProofs SparseOpsProofs
  SparseConvProofs AutocovModel AutocovSpec AutocovProofs AutocovAggProofs AutocovCtorProofs.

Ltac csr_ok_tac := apply csr_okb_sound; vm_compute; reflexivity.
(** computes lists and options of numbers *)
Ltac num_compute := vm_compute;
  repeat first [reflexivity | apply Qc_is_canon; vm_compute; reflexivity | apply f_equal2 | apply f_equal].
Ltac norep_tac n := apply (no_repetition_check n); vm_compute; reflexivity.

(** Example: three states, the first row not in column order. *)
Definition exPT : csr := mkCsr [qf 1 6; qf 1 6; qf 1 3; qf 1 6; qf 1 6] [2; 0; 1; 0; 2] [0; 2; 3; 5].
Definition exP : probs := PVec [qf 1 3; qf 1 3; qf 1 3] [qf 1 3; qf 1 3; qf 1 3].
Definition exA : autocov :=
  match ac_init exPT exP false with Some A => A | None => mkA exPT exPT exP false end.
Example exA_built : built 3 exPT exP false exA.
Proof. split; [csr_ok_tac|]. split; [discriminate|vm_compute; reflexivity]. Qed.
Example exPT_norep : no_repetition exPT.
Proof. norep_tac 3. Qed.
Example exA_array : map (fun i => map (toarray exA i) (seq 0 3)) (seq 0 3) =
  [[qf 1 18; qf (-1) 9; qf 1 18]; [qf (-1) 9; qf 2 9; qf (-1) 9]; [qf 1 18; qf (-1) 9; qf 1 18]].
Proof. num_compute. Qed.

(** * C28: queries *)
Definition C28_statement : Prop :=
  forall n PT p sym A, built n PT p sym A ->
  forall i j idx rows cols, i < n -> j < n -> (forall x, In x (idx ++ rows ++ cols) -> x < n) ->
    ac_element A i j = toarray A i j /\
    ac_row_sum A i idx = sumL (fun j => toarray A i j) idx /\
    ac_col_sum A j idx = sumL (fun i => toarray A i j) idx /\
    ac_submat_sum A rows cols = sum_over (toarray A) rows cols.

(** An index given twice: the entry of PT is counted once, the entry of outer(p1, p2) twice. *)
Theorem C28_refuted : ~ C28_statement.
Proof.
  intros H.
  destruct (H 3 exPT exP false exA exA_built 0 0 [] [0] [2; 2]) as (_ & _ & _ & E).
  - lia.
  - lia.
  - intros x Hx. simpl in Hx. lia.
  - vm_compute in E. discriminate E.
Qed.

(** For lists without repetition, and storage without repetition for single elements, all
    four queries agree with the matrix. *)
Theorem C28_queries_partial : forall n PT p sym A,
  built n PT p sym A ->
  (forall i j, i < n -> j < n -> toarray A i j = (value PT i j - p1_at p i * p2_at p j)%num) /\
  (no_repetition PT -> forall i j, i < n -> j < n -> ac_element A i j = toarray A i j) /\
  (forall i idx, i < n -> index_list n idx -> ac_row_sum A i idx = sumL (fun j => toarray A i j) idx) /\
  (forall j idx, j < n -> index_list n idx -> ac_col_sum A j idx = sumL (fun i => toarray A i j) idx) /\
  (forall rows cols, index_list n cols -> ac_submat_sum A rows cols = sum_over (toarray A) rows cols).
Proof.
  intros n PT p sym A HA. repeat split.
  - intros i j Hi Hj. rewrite (built_toarray n PT p sym A i j HA Hi Hj). now destruct p.
  - intros Hr i j Hi Hj. now apply (ac_element_spec n PT p sym).
  - intros i idx Hi [Hn _]. now apply ac_row_sum_spec.
  - intros j idx Hj Hidx. now apply (ac_col_sum_spec n PT p sym).
  - intros rows cols [Hn _]. now apply ac_submat_sum_spec.
Qed.
Example C28_applies : index_list 3 [2; 0] /\ ac_col_sum exA 1 [2; 0] = qf (-2) 9 /\
  sumL (fun i => toarray exA i 1) [2; 0] = qf (-2) 9.
Proof.
  split; [|split; num_compute].
  split; [repeat constructor; simpl; lia|]. intros i Hi. simpl in Hi. lia.
Qed.

(** * C29: gains *)
Definition C29_statement : Prop :=
  forall n PT p sym A, built n PT p sym A -> no_repetition PT ->
  forall k idx, k < n -> index_list n idx ->
    (~ In k idx -> ac_moveto A k idx = Some (gain_in (toarray A) k idx)) /\
    (In k idx -> ac_moveout A k idx = Some (gain_out (toarray A) k idx)).

(** A row of PT without stored elements: the search for the diagonal element reads the first
    element of the next row. *)
Definition emptyPT : csr := mkCsr [qf 1 2; qf 1 2] [0; 1] [0; 0; 2].
Definition emptyA : autocov :=
  match ac_init emptyPT (PScal (qf 1 2) (qf 1 2)) false with Some A => A | None => exA end.
Theorem C29_refuted : ~ C29_statement.
Proof.
  intros H. destruct (H 2 emptyPT (PScal (qf 1 2) (qf 1 2)) false emptyA) with (k := 0) (idx := @nil nat) as [E _].
  - split; [csr_ok_tac|]. split; [discriminate|vm_compute; reflexivity].
  - norep_tac 2.
  - lia.
  - split; [constructor|intros i []].
  - specialize (E (fun x => x)). vm_compute in E. discriminate E.
Qed.
(** ... and the last row without stored elements makes it read outside the arrays. *)
Definition lastPT : csr := mkCsr [qf 1 2; qf 1 2] [0; 1] [0; 2; 2].
Theorem C29_out_of_bounds : exists A,
  built 2 lastPT (PScal (qf 1 2) (qf 1 2)) false A /\ no_repetition lastPT /\ ac_moveto A 1 [0] = None.
Proof.
  eexists. split; [split; [csr_ok_tac|]; split; [discriminate|vm_compute; reflexivity]|].
  split; [norep_tac 2|vm_compute; reflexivity].
Qed.

Theorem C29_gains_partial : forall n PT p sym A,
  built n PT p sym A -> no_repetition PT ->
  forall k idx, k < n -> index_list n idx -> row_entries PT k <> [] ->
    (~ In k idx -> ac_moveto A k idx = Some (gain_in (toarray A) k idx)) /\
    (In k idx -> ac_moveout A k idx = Some (gain_out (toarray A) k idx)).
Proof. intros n PT p sym A HA Hr k idx Hk Hi Hne. now apply (ac_gains n PT p sym). Qed.
Example C29_applies : row_entries exPT 2 <> [] /\ ac_moveto exA 2 [0; 1] = Some (qf (-1) 18) /\
  ac_moveout exA 2 [2; 1] = Some (qf 1 6).
Proof. split; [discriminate|]. split; num_compute. Qed.

(** * C30: aggregation *)
Definition C30_statement : Prop :=
  forall n PT p sym A, 0 < n -> built n PT p sym A -> forall cl, partitions n cl ->
  exists B, ac_aggregate A cl = Some B /\
    forall a b, a < length cl -> b < length cl ->
      toarray B a b = sum_over (toarray A) (nth a cl []) (nth b cl []).

Lemma one_cluster_partitions n : 0 < n -> partitions n [seq 0 n].
Proof.
  intros Hn. assert (H : forall i x, in_cluster [seq 0 n] i x -> i = 0 /\ x < n).
  { intros i x H. destruct H as (c & Hc & Hx). destruct i as [|[|i]]; simpl in Hc; try discriminate. injection Hc as <-.
    apply in_seq in Hx. lia. }
  split; [repeat constructor; apply seq_NoDup|]. split.
  - intros i j x Hi Hj. apply H in Hi, Hj. lia.
  - intros x. split; [|intros [i Hi]; now apply H in Hi].
    intros Hx. exists 0, (seq 0 n). split; [reflexivity|]. apply in_seq. lia.
Qed.
(** Blocks with a negative sum are dropped by the first of the two algorithms. *)
Definition negPT : csr := mkCsr [qz (-1); qz (-1)] [0; 1] [0; 1; 2].
Definition halves : probs := PVec [qf 1 2; qf 1 2] [qf 1 2; qf 1 2].
Definition negA : autocov := match ac_init negPT halves false with Some A => A | None => exA end.
Theorem C30_refuted : ~ C30_statement.
Proof.
  intros H. destruct (H 2 negPT halves false negA) with (cl := [seq 0 2]) as (B & E & HB).
  - lia.
  - split; [csr_ok_tac|]. split; [discriminate|vm_compute; reflexivity].
  - apply one_cluster_partitions. lia.
  - specialize (HB 0 0 ltac:(simpl; lia) ltac:(simpl; lia)).
    assert (EB : ac_aggregate negA [seq 0 2] = ac_init (mkCsr [] [] [0; 0]) (PVec [qz 1] [qz 1]) false).
    { vm_compute. repeat f_equal; apply Qc_is_canon; reflexivity. }
    rewrite EB in E. vm_compute in E. injection E as <-. vm_compute in HB. discriminate HB.
Qed.
(** Scalars p1 and p2 other than 1/N are replaced by 1/N. *)
Definition scalA : autocov :=
  match ac_init exPT (PScal (qz 1) (qz 1)) false with Some A => A | None => exA end.
Theorem C30_scalars_refuted : exists B,
  built 3 exPT (PScal (qz 1) (qz 1)) false scalA /\ ac_aggregate scalA [seq 0 3] = Some B /\
  toarray B 0 0 = 0%num /\ sum_over (toarray scalA) (seq 0 3) (seq 0 3) = qz (-8).
Proof.
  eexists. split; [split; [csr_ok_tac|split; [discriminate|vm_compute; reflexivity]]|].
  split; [vm_compute; reflexivity|]. split; num_compute.
Qed.

(** With non-negative PT and probabilities summing to one, aggregation sums the blocks; the
    result has again these properties. *)
Theorem C30_aggregate_partial : forall n PT p sym A,
  0 < n -> built n PT p sym A -> normalised_probs n p ->
  (forall i j, i < n -> j < n -> (0 <= value PT i j)%num) ->
  forall cl, partitions n cl ->
  exists PT' p' B, ac_aggregate A cl = Some B /\ built (length cl) PT' p' sym B /\
    normalised_probs (length cl) p' /\ no_repetition PT' /\
    (forall a b, a < length cl -> b < length cl -> (0 <= value PT' a b)%num) /\
    forall a b, a < length cl -> b < length cl ->
      toarray B a b = sum_over (toarray A) (nth a cl []) (nth b cl []).
Proof.
  intros n PT p sym A Hn HA Hp H0 cl Hcl.
  destruct (ac_aggregate_spec n PT p sym A cl Hn HA Hp Hcl H0) as (PT' & p1' & p2' & B & E & HB & Hp' & Hr & Hv & _ & _ & HT & _).
  exists PT', (PVec p1' p2'), B. repeat (split; [assumption|]). split; [|exact HT].
  intros a b Ha Hb. rewrite Hv by assumption. unfold sum_over.
  destruct (cluster_props n cl a Hcl) as [_ Ra]. destruct (cluster_props n cl b Hcl) as [_ Rb].
  apply sumL_nonneg. intros i Hi. apply sumL_nonneg. intros j Hj. apply H0; auto.
Qed.
(** The two algorithms: total of the triples they produce for a block. *)
Definition block_total (l : list triple) (a b : nat) : num :=
  sumL (fun t => if (fst (fst t) =? a) && (snd (fst t) =? b) then snd t else 0%num) l.
Theorem C30_algorithms_agree : forall n PT cl a b,
  csr_ok n PT -> partitions n cl -> a < length cl -> b < length cl ->
  (forall i j, i < n -> j < n -> (0 <= value PT i j)%num) ->
  block_total (aggregate_v1 PT cl) a b = sum_over (value PT) (nth a cl []) (nth b cl []) /\
  block_total (aggregate_v2 PT cl) a b = sum_over (value PT) (nth a cl []) (nth b cl []).
Proof.
  intros n PT cl a b HM Hcl Ha Hb H0.
  destruct (cluster_props n cl a Hcl) as [_ Ra]. destruct (cluster_props n cl b Hcl) as [_ Rb]. split.
  - apply (v1_at n); try assumption. apply sumL_nonneg. intros i Hi. apply sumL_nonneg. intros j Hj. apply H0; auto.
  - now apply (v2_at n).
Qed.
Example C30_applies : normalised_probs 3 exP /\ partitions 3 [[2; 0]; [1]] /\
  exists B, ac_aggregate exA [[2; 0]; [1]] = Some B /\ toarray B 0 1 = qf (-2) 9.
Proof.
  split; [split; num_compute|]. split.
  - assert (H : forall i x, in_cluster [[2; 0]; [1]] i x -> (i = 0 /\ (x = 0 \/ x = 2)) \/ (i = 1 /\ x = 1)).
    { intros i x H. destruct H as (c & Hc & Hx). destruct i as [|[|[|i]]]; simpl in Hc; try discriminate; injection Hc as <-; simpl in Hx; lia. }
    split; [repeat constructor; simpl; lia|]. split.
    + intros i j x Hi Hj. apply H in Hi, Hj. lia.
    + intros x. split; [|intros [i Hi]; apply H in Hi; lia].
      intros Hx. destruct x as [|[|[|x]]]; [exists 0|exists 1|exists 0|lia]; eexists; split; try reflexivity; simpl; lia.
  - eexists. split; [vm_compute; reflexivity|num_compute].
Qed.

(** * C31: is_all_zeros *)
Definition C31_statement : Prop :=
  forall n PT p sym A, built n PT p sym A -> no_repetition PT ->
  (is_all_zeros A = true <-> forall i j, i < n -> j < n -> toarray A i j = 0%num).

(** Entries that are not stored are not looked at. *)
Definition quartPT : csr := mkCsr [qf 1 4; qf 1 4] [0; 1] [0; 1; 2].
Definition quartA : autocov := match ac_init quartPT halves false with Some A => A | None => exA end.
Theorem C31_refuted : ~ C31_statement.
Proof.
  intros H. destruct (H 2 quartPT halves false quartA) as [E _].
  - split; [csr_ok_tac|]. split; [discriminate|vm_compute; reflexivity].
  - norep_tac 2.
  - specialize (E ltac:(vm_compute; reflexivity) 0 1 ltac:(lia) ltac:(lia)). vm_compute in E. discriminate E.
Qed.
(** The absolute tolerance 1e-8 hides a true covariance: the identity transition with
    probabilities 1 - 1e-9 and 1e-9. *)
Definition tinyT : csr := mkCsr [qz 1; qz 1] [0; 1] [0; 1; 2].
Definition tinyp : list num := [(1 - qf 1 1000000000)%num; qf 1 1000000000].
Theorem C31_tolerance_refuted : exists A, from_T tinyT (Some tinyp) None = Some A /\
  is_all_zeros A = true /\ (0 < toarray A 0 0)%num.
Proof.
  eexists. split; [vm_compute; reflexivity|]. split; [vm_compute; reflexivity|]. vm_compute. reflexivity.
Qed.

(** The zero matrix is always recognised; and when the rows of the matrix sum to zero, as
    those of a covariance do, a positive answer bounds every entry of the matrix. *)
Theorem C31_zeros_partial : forall n PT p sym A,
  built n PT p sym A -> no_repetition PT ->
  ((forall i j, i < n -> j < n -> toarray A i j = 0%num) -> is_all_zeros A = true) /\
  ((forall i j, i < n -> j < n -> (0 <= p1_at p i * p2_at p j)%num) ->
   (forall i, i < n -> sumN n (toarray A i) = 0%num) ->
   is_all_zeros A = true -> forall i j, i < n -> j < n ->
   (qabs (toarray A i j) <= qn n * qf 1 100000000 + qf 1 100000 * sumN n (fun j => (p1_at p i * p2_at p j)%num))%num).
Proof.
  intros n PT p sym A HA Hr. split; [now apply (zeros_detected n PT p sym)|].
  intros H0 Hs Hz i j Hi Hj.
  assert (E : forall i j, (p1_at p i * p2_at p j)%num = p0_at p i j) by now destruct p.
  assert (H0' : forall i j, i < n -> j < n -> (0 <= p0_at p i j)%num).
  { intros a b Ha Hb. rewrite <- E. now apply H0. }
  rewrite (sumN_ext n (fun j => (p1_at p i * p2_at p j)%num) (p0_at p i)) by (intros; apply E).
  apply (zeros_bound n PT p sym A i j HA Hr H0' Hs Hz Hi Hj).
Qed.
(** the uniform transition matrix has no covariance *)
Definition flatPT : csr := mkCsr [qf 1 4; qf 1 4; qf 1 4; qf 1 4] [0; 1; 1; 0] [0; 2; 4].
Definition flatA : autocov := match ac_init flatPT halves true with Some A => A | None => exA end.
Example C31_applies : built 2 flatPT halves true flatA /\ no_repetition flatPT /\
  (forall i, i < 2 -> sumN 2 (toarray flatA i) = 0%num) /\ is_all_zeros flatA = true /\ is_all_zeros exA = false.
Proof.
  split; [split; [csr_ok_tac|split; [|vm_compute; reflexivity]]|].
  { intros _ i j Hi Hj. destruct i as [|[|i]], j as [|[|j]]; try lia; num_compute. }
  split; [norep_tac 2|]. split; [|split; vm_compute; reflexivity].
  intros i Hi. destruct i as [|[|i]]; try lia; num_compute.
Qed.

(** * C61: from_T *)
Lemma means_used1 n p1 q : means_p1 n p1 q -> opt_length n p1 /\ used_p1 n p1 = q.
Proof.
  intros [L H]. destruct p1 as [v|]; cbn [opt_length used_p1 used_p2]; [rewrite H in L |- *; split; [exact L|reflexivity]|]. split; [exact I|].
  apply (nth_ext _ _ 0%num 0%num); [unfold uniform; now rewrite repeat_length|].
  intros i Hi. unfold uniform in Hi. rewrite repeat_length in Hi. rewrite uniform_nth by exact Hi. now rewrite H.
Qed.
Lemma means_used2 n T q1 p2 q : means_p2 n T q1 p2 q -> opt_length n p2 /\ used_p2 n T q1 p2 = q.
Proof.
  intros [L H]. destruct p2 as [v|]; cbn [opt_length used_p1 used_p2]; [rewrite H in L |- *; split; [exact L|reflexivity]|]. split; [exact I|].
  apply (nth_ext _ _ 0%num 0%num); [unfold vec_csr; now rewrite map_length, seq_length|].
  intros i Hi. unfold vec_csr in Hi. rewrite map_length, seq_length in Hi. rewrite vec_csr_nth by exact Hi. now rewrite H.
Qed.
Theorem C61_from_T : forall n T p1 p2 q1 q2,
  csr_ok n T -> means_p1 n p1 q1 -> means_p2 n T q1 p2 q2 ->
  exists A, from_T T p1 p2 = Some A /\
    (forall i j, i < n -> j < n -> toarray A i j = (nth i q1 0 * value T i j - nth i q1 0 * nth j q2 0)%num) /\
    (transition n T -> distribution n q1 -> p2 = None ->
       (forall i, i < n -> sumN n (fun j => toarray A i j) = 0%num) /\
       (forall j, j < n -> sumN n (fun i => toarray A i j) = 0%num)).
Proof.
  intros n T p1 p2 q1 q2 HT H1 H2. destruct (means_used1 _ _ _ H1) as [L1 E1].
  destruct (means_used2 _ _ _ _ _ H2) as [L2 E2].
  destruct (from_T_spec n T p1 p2 HT L1 L2) as (PT & A & E & _ & _ & _ & HA). rewrite E1, E2 in HA.
  exists A. split; [exact E|]. split; [exact HA|]. intros (_ & _ & T1) (_ & _ & Q1) ->. destruct H2 as [_ H2].
  assert (S2 : sumN n (fun j => nth j q2 0%num) = 1%num).
  { rewrite (sumN_ext _ _ (pushed n T q1)) by exact H2. unfold pushed, sumN. rewrite sumL_swap.
    rewrite (sumL_ext _ (fun i => nth i q1 0%num)); [exact Q1|]. intros i Hi. apply seq_In_iff in Hi.
    rewrite (sumL_scal_l (nth i q1 0%num) (value T i)). specialize (T1 i Hi). unfold sumN in T1. rewrite T1. ring. }
  split.
  - intros i Hi. rewrite (sumN_ext _ _ (fun j => (nth i q1 0 * value T i j - nth i q1 0 * nth j q2 0)%num)) by (intros; now apply HA).
    unfold sumN in *. rewrite sumL_sub, (sumL_scal_l _ (value T i)), (sumL_scal_l _ (fun j => nth j q2 0%num)), T1, S2 by exact Hi. ring.
  - intros j Hj. rewrite (sumN_ext _ _ (fun i => (nth i q1 0 * value T i j - nth i q1 0 * nth j q2 0)%num)) by (intros; now apply HA).
    unfold sumN in *. rewrite sumL_sub, (sumL_scal_r _ (fun i => nth i q1 0%num)), Q1, H2 by exact Hj.
    unfold pushed, sumN. ring.
Qed.
(** Example: a walk on three states whose second step forgets *)
Definition exT : csr := mkCsr [qf 1 2; qf 1 2; qz 1; qf 1 3; qf 2 3] [2; 0; 1; 2; 1] [0; 2; 3; 5].
Definition exq : list num := [qf 1 2; qf 1 4; qf 1 4].
Example exT_transition : transition 3 exT /\ distribution 3 exq.
Proof.
  split; [split; [csr_ok_tac|split]|split; [reflexivity|split]].
  - intros i j Hi Hj. destruct i as [|[|[|i]]], j as [|[|[|j]]]; try lia; vm_compute; discriminate.
  - intros i Hi. destruct i as [|[|[|i]]]; try lia; num_compute.
  - intros i Hi. destruct i as [|[|[|i]]]; try lia; vm_compute; discriminate.
  - num_compute.
Qed.
Example C61_applies : exists q2, means_p1 3 (Some exq) exq /\ means_p2 3 exT exq None q2 /\
  exists A, from_T exT (Some exq) None = Some A /\ toarray A 0 0 = qf 1 8.
Proof.
  exists [qf 1 4; qf 5 12; qf 1 3]. split; [split; reflexivity|]. split.
  - split; [reflexivity|]. intros j Hj. destruct j as [|[|[|j]]]; try lia; num_compute.
  - eexists. split; [vm_compute; reflexivity|num_compute].
Qed.

(** * C62: from_T_forward *)
Theorem C62_from_T_forward : forall sp n T p1 q,
  scipy_ok sp -> 0 < n -> transition n T -> means_p1 n p1 q -> distribution n q ->
  exists A, from_T_forward sp T p1 None = Some A /\
    (forall i j, i < n -> j < n -> toarray A i j = forward_cov n T q i j) /\
    (forall i j, i < n -> j < n -> toarray A i j = toarray A j i) /\
    (forall i, i < n -> sumN n (fun j => toarray A i j) = 0%num) /\
    (forall cluster, index_list n cluster -> (0 <= ac_submat_sum A cluster cluster)%num).
Proof.
  intros sp n T p1 q Hsp Hn (HT & T0 & T1) H1 (LQ & Q0 & Q1). destruct (means_used1 _ _ _ H1) as [L1 E1].
  destruct (from_T_forward_spec sp n T p1 None Hsp Hn HT L1 I) as (PT & p & A & E & HA & V & P0). rewrite E1 in V, P0.
  set (f := forward n (value T) (fun i => nth i q 0%num)).
  assert (Hf : forall i j, i < n -> j < n -> toarray A i j = f i j).
  { intros i j Hi Hj. rewrite (built_toarray n PT p true A i j HA Hi Hj), V, P0 by assumption. unfold f, forward.
    f_equal. apply sumN_ext. intros k Hk. cbn [used_p2]. now rewrite vec_csr_nth. }
  exists A. split; [exact E|]. split; [|split; [|split]].
  - intros i j Hi Hj. rewrite Hf by assumption. unfold f, forward, forward_cov. f_equal. apply sumN_ext. intros k Hk.
    change (pushed n T q k) with (fwd_p2 n (value T) (fun i => nth i q 0%num) k). unfold inv1.
    destruct (qeqb_spec (fwd_p2 n (value T) (fun i => nth i q 0%num) k) 0%num) as [Hz|Hz].
    + assert (Z := p2_zero n (value T) (fun i => nth i q 0%num) T0 Q0 k i Hk Hi Hz). cbv beta in Z.
      transitivity ((nth i q 0 * value T i k) * (1 * value T j k * nth j q 0))%num; [ring|]. rewrite Z. ring.
    + field. exact Hz.
  - intros i j Hi Hj. rewrite !Hf by assumption. apply forward_sym.
  - intros i Hi. rewrite (sumN_ext _ _ (f i)) by (intros; now apply Hf). now apply forward_row_sum.
  - intros cl [Hnd Hr]. rewrite ac_submat_sum_spec by exact Hnd. unfold sum_over.
    assert (X := forward_psd n (value T) (fun i => nth i q 0%num) T0 T1 Q0 Q1 (fun i => if memb i cl then 1%num else 0%num)).
    fold f in X.
    match type of X with (_ <= ?b)%num => replace (sumL (fun i => sumL (fun j => toarray A i j) cl) cl) with b; [exact X|] end.
    symmetry. rewrite <- (sumL_perm _ _ _ (sub_seq_perm cl n Hnd Hr)), sumL_filter. apply sumL_ext. intros i Hi. apply seq_In_iff in Hi.
    destruct (memb i cl).
    + rewrite <- (sumL_perm _ _ _ (sub_seq_perm cl n Hnd Hr)), sumL_filter. apply sumL_ext. intros j Hj. apply seq_In_iff in Hj.
      rewrite Hf by assumption. destruct (memb j cl); ring.
    + symmetry. apply sumL_zero. intros; ring.
Qed.
Example C62_applies : exists A, from_T_forward dense_scipy exT (Some exq) None = Some A /\
  toarray A 0 1 = qf (-1) 8 /\ toarray A 1 2 = qf 3 80.
Proof. eexists. split; [vm_compute; reflexivity|]. split; num_compute. Qed.

(** * C63: the in-place products with diagonal matrices *)
Theorem C63_scaling : forall n M d, csr_ok n M -> length d = n ->
  exists R C, scale_rows M d = Some R /\ scale_cols M d = Some C /\ csr_ok n R /\ csr_ok n C /\
    (forall i j, i < n -> j < n -> value R i j = sumN n (fun k => ((if i =? k then nth i d 0 else 0) * value M k j)%num)) /\
    (forall i j, i < n -> j < n -> value C i j = sumN n (fun k => (value M i k * (if k =? j then nth j d 0 else 0))%num)) /\
    (forall i, i < n -> map fst (row_entries R i) = map fst (row_entries M i) /\
                        map fst (row_entries C i) = map fst (row_entries M i)).
Proof.
  intros n M d HM L. destruct (scale_rows_spec n M d HM L) as (R & E1 & H1 & R1 & V1).
  destruct (scale_cols_spec n M d HM L) as (C & E2 & H2 & R2 & V2).
  exists R, C. repeat (split; [assumption|]). split; [|split].
  - intros i j Hi Hj. rewrite V1 by exact Hi.
    rewrite (sumN_ext _ _ (fun k => if k =? i then (nth i d 0 * value M k j)%num else 0%num)).
    + now rewrite sumN_delta.
    + intros k _. rewrite Nat.eqb_sym. destruct (k =? i); ring.
  - intros i j Hi Hj. rewrite V2 by exact Hi.
    rewrite (sumN_ext _ _ (fun k => if k =? j then (value M i k * nth j d 0)%num else 0%num)).
    + now rewrite sumN_delta.
    + intros k _. destruct (k =? j); ring.
  - intros i Hi. rewrite R1, R2 by exact Hi. now rewrite !map_map.
Qed.
Example C63_applies : csr_ok 3 exT /\ option_map (fun M => value M 2 1) (scale_rows exT [qz 2; qz 3; qz 5]) = Some (qf 10 3) /\
  option_map (fun M => value M 2 1) (scale_cols exT [qz 2; qz 3; qz 5]) = Some (qz 2).
Proof. split; [csr_ok_tac|]. split; num_compute. Qed.

Print Assumptions C28_refuted.
Print Assumptions C28_queries_partial.
Print Assumptions C29_refuted.
Print Assumptions C29_out_of_bounds.
Print Assumptions C29_gains_partial.
Print Assumptions C30_refuted.
Print Assumptions C30_scalars_refuted.
Print Assumptions C30_aggregate_partial.
Print Assumptions C30_algorithms_agree.
Print Assumptions C31_refuted.
Print Assumptions C31_tolerance_refuted.
Print Assumptions C31_zeros_partial.
Print Assumptions C61_from_T.
Print Assumptions C62_from_T_forward.
Print Assumptions C63_scaling.
