(** Property C206: the static clusterings of run_clusterings.py. *)
From Verif Require ClustProps.
From Verif Require Import Base PartitionModel PartitionSpec PartitionProofs LouvainModel LouvainSpec LouvainProofs
  SparseModel SparseSpec SparseProofs AutocovModel AutocovSpec AutocovProofs AutocovAggProofs AutocovCtorProofs SparseLouvainModel SparseLouvainSpec SparseLouvainProofs SparseLouvainProps
  EventsModel EventsSpec TransModel TransSpec MatProofs StaticModel StaticSpec StaticProofs StaticProps
  MultiModel MultiSpec ClustModel ClustSpec ClustProofs ClustRunProofs ClustSummaryProofs StaticRunModel.
Local Open Scope bool_scope.

(** ** Specification *)
(** the csr matrices of the exponential: no position is stored twice, and the entries are those
    of [E] *)
Definition stores (n : nat) (E : num -> mat -> mat) (expm : num -> mat -> csr) : Prop := forall x L,
  csr_ok n (expm x L) /\ no_repetition (expm x L) /\ forall i j, i < n -> j < n -> value (expm x L) i j = E x L i j.
(** every node has a contact *)
Definition no_isolated_node (n : nat) (A : mat) : Prop := forall i, i < n -> exists j, j < n /\ (A i j <> 0%num \/ A j i <> 0%num).
(** the largest stability of a matrix that the search takes for zero *)
Definition zero_tolerance (n : nat) : num := (qn n * (qn n * (qn n * qf 1 100000000 + qf 1 100000)))%num.
Definition singletons (n : nat) : list (list nat) := map (fun i => [i]) (seq 0 n).
(** The runs end, each with a partition of the nodes, its stability for the random walk on the
    network whose edges are taken in both directions (C98), which is at least that of
    singletons, up to the tolerance; the best of them is reported *)
Definition good_runs (n : nat) (E : num -> mat -> mat) (expm : num -> mat -> csr) setord rng n_meta n_sub (A : mat) (seeds : list nat) : Prop :=
  forall eig, exists c clusters stabs,
    static_clustering n eig E true (fun i j => (A i j + A j i) / (1 + 1))%num (PyInt 1) false false false = Some c /\
    static_runs n eig expm setord rng n_meta n_sub A seeds = Some (clusters, stabs, seeds) /\ length clusters = length seeds /\
    Forall2 (fun cl r => partitions n cl /\ no_empty cl /\ r = total (st_S c) cl /\
      (total (st_S c) (singletons n) <= r + zero_tolerance n)%num) clusters stabs /\
    exists s k, static_summary n eig expm setord rng n_meta n_sub A seeds = Some s /\
      k < length seeds /\ r_best s = nth k clusters [] /\ r_best_stab s = nth k stabs 0%num /\
      forall j, j < length seeds -> (nth j stabs 0 <= r_best_stab s)%num.

(** * C206 *)
Definition C206_statement : Prop := forall n E expm setord rng n_meta n_sub A seeds,
  is_iteration_order setord -> (forall s, shuffles (rng s)) -> exponential n E -> stores n E expm ->
  network n A -> seeds <> [] -> good_runs n E expm setord rng n_meta n_sub A seeds.

(** Two triangles and, last, a node without contacts.  The triangles are found, but no entry is
    stored for the last meta node: the gain of moving it out is read outside the arrays (C29). *)
Definition triangles : mat := fun i j =>
  if (i =? j) then 0%num else if (i <? 3) && (j <? 3) || ((3 <=? i) && (i <? 6) && (3 <=? j) && (j <? 6)) then 1%num else 0%num.
Definition unused_eig : mat -> eigenpair := fun _ => mkEigen 0 0 (fun _ => 0%num) (fun _ => 0%num).
Definition resolvent_csr (n : nat) : num -> mat -> csr := fun x L => csr_of n (resolvent x L).
Lemma resolvent_stores n : stores n resolvent (resolvent_csr n).
Proof. intros x L. split; [apply csr_of_ok|]. split; [apply csr_of_norep|]. intros i j Hi Hj. now apply csr_of_value. Qed.
Lemma triangles_network n : 2 <= n -> network n triangles.
Proof.
  intros Hn. split.
  - intros i j _ _. unfold triangles. repeat (match goal with |- context [if ?b then _ else _] => destruct b end); discriminate.
  - exists 0, 1. split; [lia|]. split; [lia|]. discriminate.
Qed.
Theorem C206_isolated_refuted : ~ C206_statement.
Proof.
  intros H. destruct (H 7 resolvent (resolvent_csr 7) keep_order (fun _ => SparseLouvainProps.in_order) 100 100 triangles [0]) with (eig := unused_eig) as (c & clusters & stabs & _ & E & _).
  - intros l. apply Permutation_refl.
  - intros s level k n. apply Permutation_refl.
  - apply resolvent_ok.
  - apply resolvent_stores.
  - apply triangles_network. lia.
  - discriminate.
  - assert (N : static_runs 7 unused_eig (resolvent_csr 7) keep_order (fun _ => SparseLouvainProps.in_order) 100 100 triangles [0] = None) by (vm_compute; reflexivity).
    rewrite N in E. discriminate E.
Qed.
Print Assumptions C206_isolated_refuted.

Section Partial.
Context (n : nat) (eig : mat -> eigenpair) (E : num -> mat -> mat) (expm : num -> mat -> csr).
Context (setord : list nat -> list nat) (rng : nat -> nat -> nat -> nat -> list nat) (n_meta n_sub : nat) (A : mat).
Hypothesis Hso : is_iteration_order setord.
Hypothesis Hrng : forall s, shuffles (rng s).
Hypothesis HE : exponential n E.
Hypothesis HS : stores n E expm.
Hypothesis HN : network n A.
Hypothesis HI : no_isolated_node n A.

Let B : mat := symmetrised A.
Lemma B_entry i j : B i j = ((A i j + A j i) / (1 + 1))%num.
Proof. reflexivity. Qed.
Lemma half_nonneg x : (0 <= x)%num -> (0 <= x / (1 + 1))%num.
Proof. intros H. apply qdiv_nonneg; [exact H|reflexivity]. Qed.
Lemma half_pos x : (0 <= x)%num -> x <> 0%num -> (0 < x / (1 + 1))%num.
Proof.
  intros H N. apply qle_lt_or_eq in H. destruct H as [H|H]; [|congruence].
  unfold Qcdiv. apply qmult_pos; [exact H|reflexivity].
Qed.
Lemma B_nonneg i j : i < n -> j < n -> (0 <= B i j)%num.
Proof using HN.
  intros Hi Hj. rewrite B_entry. apply half_nonneg. destruct HN as [H0 _]. assert (H1 := H0 i j Hi Hj). assert (H2 := H0 j i Hj Hi).
  revert H1 H2. generalize (A i j) (A j i). qlra.
Qed.
Lemma B_strength i : i < n -> (0 < strength n B i)%num.
Proof using HN HI.
  intros Hi. destruct (HI i Hi) as (j & Hj & Hc).
  assert (Hp : (0 < B i j)%num).
  { rewrite B_entry. destruct HN as [H0 _]. assert (H1 := H0 i j Hi Hj). assert (H2 := H0 j i Hj Hi). apply half_pos.
    - revert H1 H2. generalize (A i j) (A j i). qlra.
    - intros N. destruct Hc as [Hc|Hc]; apply Hc; revert H1 H2 N; generalize (A i j) (A j i); intros a b H1 H2 N; apply Qcle_antisym; revert H1 H2 N; qlra. }
  apply Qclt_le_trans with (B i j); [exact Hp|]. apply (entry_le n B B_nonneg i j Hi Hj).
Qed.
Lemma B_undirected : undirected n B.
Proof. intros i j _ _. rewrite !B_entry. f_equal. ring. Qed.
Lemma n_pos : 0 < n.
Proof using HN. destruct HN as (_ & i & j & Hi & _). lia. Qed.
Lemma B_network : network n B.
Proof using HN HI.
  split; [exact B_nonneg|]. destruct (HI 0 n_pos) as (j & Hj & Hc). exists 0, j. split; [exact n_pos|]. split; [exact Hj|].
  assert (Hp := B_entry 0 j). intros N. rewrite Hp in N. destruct HN as [H0 _]. assert (H1 := H0 0 j n_pos Hj). assert (H2 := H0 j 0 Hj n_pos).
  revert Hc H1 H2 N. generalize (A 0 j) (A j 0). intros a b Hc H1 H2 N.
  assert (Hs : (0 < (a + b) / (1 + 1))%num).
  { apply half_pos; [revert H1 H2; qlra|]. intros N'. destruct Hc as [Hc|Hc]; apply Hc, Qcle_antisym; revert H1 H2 N'; qlra. }
  rewrite N in Hs. revert Hs. qlra.
Qed.

Lemma static_object : exists c PT p M, static_clustering n eig E true B (PyInt 1) false false false = Some c /\
  static_sparse n eig expm B = Some (mkSparse p p M) /\ usable n PT (PVec p p) false M /\
  (forall i, i < n -> (0 <= nth i p 0)%num) /\ sumN n (fun i => nth i p 0%num) = 1%num /\ eqm n (toarray M) (st_S c) /\
  (forall i, i < n -> sumN n (toarray M i) = 0%num).
Proof using HE HS HN HI.
  assert (Ht : (0 <= time_value (PyInt 1))%num) by discriminate.
  destruct (C98_undirected n eig E true B (PyInt 1) false false B_network B_undirected HE Ht) as (c & Ec & (P0 & P1) & Hp & H1 & H2 & _ & _ & _ & Hrow).
  assert (Hok : time_ok false false (PyInt 1)) by (split; [exact Ht|discriminate]). specialize (H2 Hok).
  assert (Hpos := total_pos n B B_nonneg (proj2 B_network)).
  unfold static_clustering in Ec. rewrite (undirected_some n eig B Hpos) in Ec. cbn [orb] in Ec. injection Ec as Ec.
  set (p := fun i => (strength n B i / total_strength n B)%num) in *. set (q := map p (seq 0 n)).
  assert (ET : st_T c = E (time_value (PyInt 1)) (mminus ident (Tstat n B))) by now rewrite <- Ec.
  assert (Ep : st_p c = p) by now rewrite <- Ec. assert (ES : st_S c = compute_S p p (st_T c)) by now rewrite <- Ec.
  destruct (HS (time_value (PyInt 1)) (mminus ident (Tstat n B))) as (HT & Hr & HV). set (T := expm (time_value (PyInt 1)) (mminus ident (Tstat n B))) in *.
  assert (Lq : length q = n) by (unfold q; now rewrite map_length, seq_length).
  assert (Nq : forall i, i < n -> nth i q 0%num = p i) by (intros i Hi; unfold q; now apply nth_map_seq_default).
  assert (Pp : forall i, i < n -> (0 < p i)%num).
  { intros i Hi. unfold p, Qcdiv. apply qmult_pos; [now apply B_strength|now apply qinv_pos]. }
  destruct (from_T_spec n T (Some q) (Some q) HT Lq Lq) as (PT & M & EM & HB & HR & HV' & HA). cbn [used_p1 used_p2] in HB, HR, HV', HA.
  assert (Q1 : sumN n (fun i => nth i q 0%num) = 1%num) by (rewrite (sumN_ext _ _ p) by exact Nq; rewrite Ep in P1; exact P1).
  assert (HMS : eqm n (toarray M) (st_S c)).
  { intros i j Hi Hj. rewrite HA by assumption. rewrite !Nq, HV, ES, ET by assumption. unfold compute_S. ring. }
  exists c, PT, q, M. split; [|split; [|split; [|split; [|split; [|split]]]]].
  - unfold static_clustering. rewrite (undirected_some n eig B Hpos). cbn [orb]. f_equal. exact Ec.
  - unfold static_sparse. rewrite (undirected_some n eig B Hpos). fold p q T. now rewrite EM.
  - split; [exact HB|]. split; [|split; [|split]].
    + apply (no_repetition_ok n PT (proj1 HB)). intros i Hi. rewrite HR by exact Hi. rewrite map_map. cbn [fst]. apply Hr.
    + split; rewrite (sum_as_list q n Lq); exact Q1.
    + intros i j Hi Hj. rewrite HV' by assumption. rewrite Nq, HV by assumption. apply qmult_nonneg; [now apply Qclt_le_weak, Pp|].
      rewrite <- ET. now apply H2.
    + intros i Hi. rewrite (sumN_ext _ _ (fun j => (p i * st_T c i j)%num)) by (intros j Hj; rewrite HV', Nq, HV by assumption; now rewrite ET).
      assert (E1 : sumN n (st_T c i) = 1%num) by exact (H1 i Hi).
      assert (E2 : sumN n (fun j => (p i * st_T c i j)%num) = (p i * sumN n (st_T c i))%num) by apply sumN_scal_l. rewrite E2, E1. replace (p i * 1)%num with (p i) by ring. now apply Pp.
  - intros i Hi. rewrite Nq by exact Hi. now apply Qclt_le_weak, Pp.
  - exact Q1.
  - exact HMS.
  - intros i Hi. rewrite (sumN_ext _ _ (fun j => st_S c i j)) by (intros j Hj; now apply HMS). now apply Hrow.
Qed.

Lemma total_ext (S S' : mat) cl : eqm n S S' -> (forall c x, In c cl -> In x c -> x < n) -> total S cl = total S' cl.
Proof.
  intros H Hc. unfold total. apply sumL_ext. intros c Hi. unfold sum_over. apply sumL_ext. intros i Hx. apply sumL_ext. intros j Hy.
  apply H; eapply Hc; eassumption.
Qed.
Lemma partition_lt cl : partitions n cl -> forall c x, In c cl -> In x c -> x < n.
Proof.
  intros H c x Hc Hx. apply partitions_perm in H. apply seq_In_iff. apply (Permutation_in _ H). apply in_concat. exists c. auto.
Qed.

Lemma static_run_spec : exists c, static_clustering n eig E true B (PyInt 1) false false false = Some c /\ forall seed,
  exists cl r, static_run n eig expm setord rng n_meta n_sub B seed = Some (cl, r, seed) /\
  partitions n cl /\ no_empty cl /\ r = total (st_S c) cl /\ (total (st_S c) (singletons n) <= r + zero_tolerance n)%num.
Proof using Hso Hrng HE HS HN HI.
  destruct static_object as (c & PT & p & M & Ec & Eo & HU & P0 & P1 & HM & Hrow). exists c. split; [exact Ec|]. intros seed.
  unfold static_run. rewrite Eo. cbn [s_A]. pose proof (proj1 HU) as HA. assert (Hn := n_pos).
  assert (Esz : a_size M = n) by apply (built_inv _ _ _ _ _ HA). rewrite Esz. unfold sparse_search. cbn [s_A].
  assert (G : forall q, valid q -> num_nodes q = n -> sp_stability M q = total (toarray M) (cluster_list q)).
  { intros q Hv Hq. rewrite (stability_dense n M q Hv Hq). now apply block_total. }
  assert (G' : forall q, valid q -> num_nodes q = n -> stability (toarray M) q = total (st_S c) (cluster_list q)).
  { intros q Hv Hq. rewrite <- (stability_spec (toarray M) q Hv). rewrite block_total by exact Hv. apply total_ext; [exact HM|]. apply partition_lt. rewrite <- Hq. apply Hv. }
  assert (Gd : total (st_S c) (singletons n) = stability (toarray M) (part_default n)).
  { rewrite (G' _ (default_valid n) eq_refl). now rewrite default_clusters. }
  assert (Hz0 : (0 <= zero_tolerance n)%num).
  { unfold zero_tolerance. assert (Hq := qn_nonneg n). repeat apply qmult_nonneg; try exact Hq. revert Hq. generalize (qn n). unfold qf. qlra. }
  assert (Fin : forall q, valid q -> no_empty (cluster_list q) -> num_nodes q = n ->
    (stability (toarray M) (part_default n) <= stability (toarray M) q + zero_tolerance n)%num ->
    exists cl r, Some (cluster_list q, sp_stability M q, seed) = Some (cl, r, seed) /\
      partitions n cl /\ no_empty cl /\ r = total (st_S c) cl /\ (total (st_S c) (singletons n) <= r + zero_tolerance n)%num).
  { intros q Hv Hne Hq Hle. assert (Hpart : partitions n (cluster_list q)) by (rewrite <- Hq; apply Hv).
    exists (cluster_list q), (sp_stability M q). split; [reflexivity|]. split; [exact Hpart|]. split; [exact Hne|].
    assert (Er : sp_stability M q = total (st_S c) (cluster_list q)) by (rewrite (G q Hv Hq); apply total_ext; [exact HM|now apply partition_lt]).
    split; [exact Er|]. rewrite Gd, Er, <- (G' q Hv Hq). exact Hle. }
  set (opt := worker_options n_meta n_sub).
  destruct (is_all_zeros M) eqn:Hz.
  - destruct (C65_zero_partial setord (orders_used rng opt seed) n PT (PVec p p) false M (o_thr opt) (o_meta opt) (o_sub opt) HU Hz) as [EL HB].
    + intros i j Hi Hj. cbn [p1_at p2_at]. apply qmult_nonneg; auto.
    + exact Hrow.
    + rewrite EL. apply Fin.
      * now apply full_partition_valid.
      * rewrite full_partition_clusters by exact Hn. constructor; [|constructor]. destruct n; [lia|discriminate].
      * reflexivity.
      * assert (Et : sumN n (fun i => sumN n (fun j => (p1_at (PVec p p) i * p2_at (PVec p p) j)%num)) = 1%num).
        { cbn [p1_at p2_at]. rewrite (sumN_ext _ _ (fun i => nth i p 0%num)); [exact P1|]. intros i Hi. rewrite sumN_scal_l, P1. ring. }
        rewrite Et in HB.
        assert (EB : (qn n * (qn n * (qn n * qf 1 100000000 + qf 1 100000 * 1)))%num = zero_tolerance n) by (unfold zero_tolerance; ring).
        rewrite EB in HB.
        assert (H1 := HB (part_default n) eq_refl). apply qabs_le in H1.
        assert (H0 : stability (toarray M) (full_partition n) = 0%num).
        { rewrite (G' _ (full_partition_valid n Hn) eq_refl), full_partition_clusters by exact Hn. 
          assert (E1 : total (st_S c) [seq 0 n] = (sumN n (fun i => sumN n (fun j => st_S c i j)) + 0)%num) by reflexivity. rewrite E1.
          rewrite (sumN_ext _ _ (fun _ => 0%num)); [unfold sumN; rewrite sumL_const; ring|]. intros i Hi. 
          transitivity (sumN n (toarray M i)); [|now apply Hrow]. symmetry. apply sumN_ext. intros j Hj. now apply HM. }
        rewrite H0. destruct H1 as [_ H1]. revert H1. generalize (stability (toarray M) (part_default n)) (zero_tolerance n). qlra.
  - destruct (C65_not_worse_partial setord (orders_used rng opt seed) n PT (PVec p p) false M (o_thr opt) (o_meta opt) (o_sub opt) Hso (Hrng seed) Hn HU Hz)
      as (q & k & EL & Hv & Hne & Hq & _ & Hle).
    rewrite EL. apply Fin; try assumption. revert Hle Hz0. generalize (stability (toarray M) (part_default n)) (stability (toarray M) q) (zero_tolerance n). qlra.
Qed.
End Partial.

(** For networks in which every node has a contact, directed or not, the runs do what is expected. *)
Theorem C206_contacts_partial : forall n E expm setord rng n_meta n_sub A seeds,
  is_iteration_order setord -> (forall s, shuffles (rng s)) -> exponential n E -> stores n E expm ->
  network n A -> no_isolated_node n A -> seeds <> [] -> good_runs n E expm setord rng n_meta n_sub A seeds.
Proof.
  intros n E expm setord rng n_meta n_sub A seeds Hso Hrng HE HS HN HI Hs eig.
  destruct (static_run_spec n eig E expm setord rng n_meta n_sub A Hso Hrng HE HS HN HI) as (c & Ec & Hrun).
  destruct (runs_spec _ _ seeds Hrun Hs) as (clusters & stabs & Er & HF & Hlen).
  exists c, clusters, stabs. split; [exact Ec|]. split; [exact Er|]. split; [exact Hlen|]. split; [exact HF|].
  assert (Hst : length stabs = length seeds) by (rewrite <- Hlen; symmetry; exact (ClustProps.Forall2_length _ _ _ HF)).
  destruct (argmax_spec stabs) as (K1 & K2 & K3). { intros N. rewrite N in Hst. destruct seeds; [congruence|discriminate]. }
  exists (summarise (clusters, stabs, seeds)), (argmax stabs). unfold static_summary, static_runs in *. rewrite Er. split; [reflexivity|].
  rewrite Hst in K1. split; [exact K1|]. split; [reflexivity|]. split; [now symmetry|]. intros j Hj. apply K3, nth_In. lia.
Qed.
Print Assumptions C206_contacts_partial.
(** matrices saved by the program are symmetric: symmetrising does not change them *)
Theorem C206_symmetric : forall n A, undirected n A -> eqm n (symmetrised A) A.
Proof.
  intros n A H i j Hi Hj. unfold symmetrised. rewrite (H j i Hj Hi). change (qn 2) with (1 + 1)%num. field. discriminate.
Qed.
Print Assumptions C206_symmetric.
(** the two triangles alone *)
Example C206_applies : network 6 triangles /\ no_isolated_node 6 triangles /\ exponential 6 resolvent /\ stores 6 resolvent (resolvent_csr 6) /\
  option_map (fun s => (r_best s, qeqb (r_best_stab s) (qf 1 2), r_counter s)) (static_summary 6 unused_eig (resolvent_csr 6) keep_order (fun _ => SparseLouvainProps.in_order) 100 100 triangles [0; 1]) =
  Some ([[0; 1; 2]; [3; 4; 5]], true, [([[0; 1; 2]; [3; 4; 5]], 2)]).
Proof.
  split; [apply triangles_network; lia|]. split; [|split; [apply resolvent_ok|split; [apply resolvent_stores|vm_compute; reflexivity]]].
  intros i Hi. exists (if i =? 0 then 1 else if i =? 1 then 0 else if i =? 2 then 0 else if i =? 3 then 4 else 3).
  do 6 (destruct i as [|i]; [split; [cbn; lia|left; discriminate]|]). lia.
Qed.
