(** Integrals saved with the density of the random walk: C161-C164. *)
From Verif Require Import Base PartitionModel PartitionSpec PartitionProofs LouvainModel LouvainSpec LouvainProofs LouvainProps
  SparseModel SparseSpec SparseProofs SparseConvProofs AutocovModel AutocovSpec AutocovProofs SparseLouvainModel SparseLouvainSpec SparseLouvainProofs
  MatProofs EventsModel EventsSpec TransModel TransSpec FlowModel FlowSpec FlowProofs CovModel CovSpec
  MultiModel MultiSpec ClustModel ClustSpec ClustProofs ClustRunProofs ClustProps InitModel InitSpec InitProofs.
Local Open Scope bool_scope.

(** * C161: integrals that agree with the density are loaded as covariances *)
Lemma exact_rows n M t p : init_ok n M t p -> marginals n M t p -> forall i, i < n -> sumN n (full_init M t i) = nth i p 0%num.
Proof.
  intros HI HM i Hi. rewrite (sumN_ext n _ (fun j => (1 / t) * symmetrised M i j)%num).
  - rewrite sumN_scal_l. change (sumN n (fun j => symmetrised M i j)) with (sumN n (symmetrised M i)). rewrite HM by exact Hi. field. apply nonzero_of_pos. apply HI.
  - intros j Hj. rewrite (full_init_symmetrised n) by (try assumption; now apply (init_ok_saved n M t p)). ring.
Qed.
Lemma some_present n p : length p = n -> (forall x, In x p -> (0 <= x)%num) -> sumL (fun x => x) p = 1%num -> exists i, present n p i.
Proof.
  intros Hl Hp Hs. destruct (existsb (fun i => qltb 0%num (nth i p 0%num)) (seq 0 n)) eqn:E.
  - apply existsb_exists in E. destruct E as (i & Hi & H). exists i. split; [now apply seq_In_iff|]. now destruct (qltb_spec 0%num (nth i p 0%num)).
  - exfalso. rewrite <- (sum_nth p n Hl) in Hs. rewrite sumN_zero in Hs; [discriminate|]. intros i Hi.
    destruct (qle_lt_or_eq _ _ (nth_nonneg p i Hp)) as [L|L]; [|now symmetry]. exfalso.
    assert (X : existsb (fun i => qltb 0%num (nth i p 0%num)) (seq 0 n) = true).
    { apply existsb_exists. exists i. split; [now apply seq_In_iff|]. destruct (qltb_spec 0%num (nth i p 0%num)) as [|N]; [reflexivity|contradiction]. }
    now rewrite E in X.
Qed.
Lemma marginals_positive n M t p : init_ok n M t p -> marginals n M t p -> forall i, present n p i -> exists j, j < n /\ (0 < symmetrised M i j)%num.
Proof.
  intros HI HM i [Hi Hpi]. destruct (existsb (fun j => qltb 0%num (symmetrised M i j)) (seq 0 n)) eqn:E.
  - apply existsb_exists in E. destruct E as (j & Hj & H). exists j. split; [now apply seq_In_iff|]. now destruct (qltb_spec 0%num (symmetrised M i j)).
  - exfalso. assert (Z1 : sumN n (symmetrised M i) = 0%num).
    { apply sumN_zero. intros j Hj. assert (H0 : (0 <= symmetrised M i j)%num) by (apply (symmetrised_nonneg n); [apply HI|exact Hi|exact Hj]).
      destruct (qle_lt_or_eq _ _ H0) as [L|L]; [|now symmetry]. exfalso.
      assert (X : existsb (fun j => qltb 0%num (symmetrised M i j)) (seq 0 n) = true).
      { apply existsb_exists. exists j. split; [now apply seq_In_iff|]. destruct (qltb_spec 0%num (symmetrised M i j)) as [|N]; [reflexivity|contradiction]. }
      now rewrite E in X. }
    rewrite HM in Z1 by exact Hi. assert (X : (0 < t * nth i p 0)%num) by (apply qmult_pos; [apply HI|exact Hpi]). rewrite Z1 in X. revert X. apply Qcle_not_lt, Qcle_refl.
Qed.
Lemma positive_entry n M i j : i < n -> j < n -> (0 < symmetrised M i j)%num -> exists a b, a < n /\ b < n /\ (0 < M a b)%num.
Proof. intros Hi Hj H. unfold symmetrised in H. destruct (i <=? j); [exists i, j|exists j, i]; auto. Qed.
Theorem C161_exact : forall n compressed norm M t p, init_ok n M t p -> marginals n M t p ->
  exists A, load_init n compressed None norm M t p = Some A /\
    (forall i j, i < n -> j < n -> toarray A i j = (symmetrised M i j / t - nth i p 0 * nth j p 0)%num) /\
    FlowSpec.symmetric n (toarray A) /\ FlowSpec.zero_rows n (toarray A).
Proof.
  intros n c norm M t p HI HM. pose proof HI as (Hn & Ht & Hlen & HU & H0 & Hp & Hsum & Hz). assert (HS := init_ok_saved n M t p HI).
  assert (HF : goodp n p (full_init M t)) by now apply full_init_good.
  assert (Fin : forall A, (forall i j, i < n -> j < n -> toarray A i j = (full_init M t i j - nth i p 0 * nth j p 0)%num) ->
    (forall i j, i < n -> j < n -> toarray A i j = (symmetrised M i j / t - nth i p 0 * nth j p 0)%num) /\ FlowSpec.symmetric n (toarray A) /\ FlowSpec.zero_rows n (toarray A)).
  { intros A HA. split; [|split].
    - intros i j Hi Hj. rewrite HA by assumption. rewrite (full_init_symmetrised n) by assumption. unfold Qcdiv. ring.
    - intros i j Hi Hj. rewrite !HA by assumption. destruct HF as (_ & Hs & _). rewrite (Hs i j Hi Hj). ring.
    - intros i Hi. rewrite (sumN_ext n _ (fun j => full_init M t i j - nth i p 0 * nth j p 0)%num) by (intros; now apply HA).
      rewrite sumN_sub. change (sumN n (fun j => full_init M t i j)) with (sumN n (full_init M t i)). rewrite (exact_rows n M t p HI HM i Hi).
      rewrite sumN_scal_l, (sum_nth p n Hlen), Hsum. ring. }
  destruct norm as [k|].
  - destruct (some_present n p Hlen Hp Hsum) as (i0 & Hi0). destruct (marginals_positive n M t p HI HM i0 Hi0) as (j0 & Hj0 & Hpos).
    destruct (load_init_some n c None k M t p HI I (positive_entry n M i0 j0 (proj1 Hi0) Hj0 Hpos) (fun _ => marginals_positive n M t p HI HM))
      as (G & A & HG & _ & EA & HT & _ & HE). exists A. split; [exact EA|]. apply Fin. intros i j Hi Hj. rewrite HT by assumption. rewrite (HE eq_refl).
    now rewrite (init_iter_fixed n p Hp k _ HF (exact_rows n M t p HI HM)).
  - unfold load_init, round_file. destruct (init_built n p (full_init M t) Hlen HF Hsum) as (A & EA & _ & _ & HT). exists A. split; [exact EA|]. now apply Fin.
Qed.
(** two nodes that exchange walkers, a node that keeps them and a node never visited *)
Definition two_one_zero (i j : nat) : num := if (i =? 0) && (j =? 1) then 1%num else if (i =? 2) && (j =? 2) then 2%num else 0%num.
Definition two_one_zero_p : list num := [qf 1 4; qf 1 4; qf 1 2; 0%num].
Lemma two_one_zero_ok : init_ok 4 two_one_zero (qn 4) two_one_zero_p /\ marginals 4 two_one_zero (qn 4) two_one_zero_p.
Proof.
  split.
  - split; [lia|]. split; [reflexivity|]. split; [reflexivity|]. split; [|split; [|split; [|split]]].
    + intros i j H. unfold two_one_zero. destruct (Nat.eqb_spec i 0), (Nat.eqb_spec j 1), (Nat.eqb_spec i 2), (Nat.eqb_spec j 2); cbn [andb]; try reflexivity; lia.
    + intros i j _ _. unfold two_one_zero. destruct ((i =? 0) && (j =? 1)); [discriminate|]. destruct ((i =? 2) && (j =? 2)); discriminate.
    + intros x [<-|[<-|[<-|[<-|[]]]]]; vm_compute; discriminate.
    + vm_compute. now apply Qc_is_canon.
    + intros i j Hi Hj E. destruct i as [|[|[|[|i]]]]; try (vm_compute in E; discriminate); [|lia].
      destruct j as [|[|[|[|j]]]]; try lia; vm_compute; now apply Qc_is_canon.
  - intros i Hi. destruct i as [|[|[|[|i]]]]; try lia; vm_compute; now apply Qc_is_canon.
Qed.
Example C161_applies : init_ok 4 two_one_zero (qn 4) two_one_zero_p /\ marginals 4 two_one_zero (qn 4) two_one_zero_p /\
  (0 < symmetrised two_one_zero 0%nat 1%nat)%num /\ nth 3 two_one_zero_p 1%num = 0%num.
Proof. split; [apply two_one_zero_ok|]. split; [apply two_one_zero_ok|]. split; reflexivity. Qed.

(** * C162: after normalisation the entries sum to zero
    Full statement: whatever rounding did. False without --integral_rtol when a node with
    positive probability has no entry: the value to put on the diagonal is None times a number. *)
Definition C162_statement : Prop := forall n compressed rtol k M t p, init_ok n M t p -> tolerance_ok compressed rtol -> (exists i j, i < n /\ j < n /\ (0 < M i j)%num) -> 0 < k ->
  exists A, load_init n compressed rtol (Some k) M t p = Some A /\ FlowSpec.symmetric n (toarray A) /\ sumN n (fun i => sumN n (toarray A i)) = 0%num.
Theorem C162_raises : forall n compressed norm M t p i, init_ok n M t p -> present n p i -> (forall j, j < n -> symmetrised M i j = 0%num) ->
  load_init n compressed None (Some norm) M t p = None.
Proof.
  intros n c norm M t p i HI [Hi Hpi] H. unfold load_init, round_file.
  assert (X : In i (InitModel.zero_rows n p (full_init M t))).
  { apply zero_rows_In. split; [exact Hi|]. split; [exact Hpi|]. apply sumN_zero. intros j Hj.
    rewrite (full_init_symmetrised n) by (try assumption; now apply (init_ok_saved n M t p)). rewrite H by exact Hj. ring. }
  destruct (InitModel.zero_rows n p (full_init M t)); [destruct X|reflexivity].
Qed.
Definition one_link (i j : nat) : num := if (i =? 0) && (j =? 1) then 1%num else 0%num.
Lemma one_link_ok p : length p = 3 -> (forall x, In x p -> (0 <= x)%num) -> sumL (fun x => x) p = 1%num -> (0 < nth 0 p 0)%num -> (0 < nth 1 p 0)%num -> init_ok 3 one_link (qn 2) p.
Proof.
  intros Hl Hp Hs H0 H1. split; [lia|]. split; [reflexivity|]. split; [exact Hl|]. split; [|split; [|split; [exact Hp|split; [exact Hs|]]]].
  - intros i j H. unfold one_link. destruct (Nat.eqb_spec i 0), (Nat.eqb_spec j 1); cbn [andb]; try reflexivity; lia.
  - intros i j _ _. unfold one_link. destruct ((i =? 0) && (j =? 1)); discriminate.
  - intros i j Hi Hj E. destruct i as [|[|[|i]]]; try lia.
    + rewrite E in H0. exfalso. revert H0. apply Qcle_not_lt, Qcle_refl.
    + rewrite E in H1. exfalso. revert H1. apply Qcle_not_lt, Qcle_refl.
    + destruct j as [|[|[|j]]]; try lia; reflexivity.
Qed.
Lemma thirds_ok : init_ok 3 one_link (qn 2) [qf 1 3; qf 1 3; qf 1 3].
Proof. apply one_link_ok; [reflexivity| | | |]; try reflexivity; [intros x [<-|[<-|[<-|[]]]]; vm_compute; discriminate|vm_compute; now apply Qc_is_canon]. Qed.
Theorem C162_zero_rows_refuted : ~ C162_statement.
Proof.
  intros H. destruct (H 3 true None 10 one_link (qn 2) _ thirds_ok) as (A & E & _); [exact I|exists 0, 1; split; [lia|split; [lia|reflexivity]]|lia|].
  rewrite (C162_raises 3 true 10 one_link (qn 2) _ 2 thirds_ok) in E; [discriminate|split; [lia|reflexivity]|].
  intros j Hj. destruct j as [|[|[|j]]]; try lia; reflexivity.
Qed.
Theorem C162_sum_zero_partial : forall n compressed rtol k M t p, init_ok n M t p -> tolerance_ok compressed rtol -> (exists i j, i < n /\ j < n /\ (0 < M i j)%num) -> 0 < k ->
  (rtol = None -> forall i, present n p i -> exists j, j < n /\ (0 < symmetrised M i j)%num) ->
  exists A, load_init n compressed rtol (Some k) M t p = Some A /\ FlowSpec.symmetric n (toarray A) /\ sumN n (fun i => sumN n (toarray A i)) = 0%num.
Proof.
  intros n c rtol k M t p HI Hr HE Hk Hrow. pose proof HI as (Hn & Ht & Hlen & HU & H0 & Hp & Hsum & Hz).
  destruct (load_init_some n c rtol k M t p HI Hr HE Hrow) as (G & A & HG & HP & EA & HT & _ & _). exists A. split; [exact EA|].
  destruct k as [|k]; [lia|]. destruct (init_iter_inv n p Hp k G HG) as (HG' & HP' & _). specialize (HP' HP). rewrite init_iter_snoc in HT.
  assert (HS := init_step_good n p Hp _ HG'). split.
  - intros i j Hi Hj. rewrite !HT by assumption. destruct HS as (_ & Hs & _). rewrite (Hs i j Hi Hj). ring.
  - rewrite (sumN_ext n _ (fun i => sumN n (init_step n p (init_iter n k p G) i) - nth i p 0)%num).
    + rewrite sumN_sub, (init_step_sum n p Hp _ HG' HP'). ring.
    + intros i Hi. rewrite (sumN_ext n _ (fun j => init_step n p (init_iter n k p G) i j - nth i p 0 * nth j p 0)%num) by (intros; now apply HT).
      rewrite sumN_sub, sumN_scal_l, (sum_nth p n Hlen), Hsum. f_equal. ring.
Qed.
Example C162_applies : init_ok 3 one_link (qn 2) [qf 1 3; qf 1 3; qf 1 3] /\ tolerance_ok true (Some (qf 1 100)) /\ (exists i j, i < 3 /\ j < 3 /\ (0 < one_link i j)%num) /\
  present 3 [qf 1 3; qf 1 3; qf 1 3] 2 /\ forall j, j < 3 -> symmetrised one_link 2 j = 0%num.
Proof.
  split; [exact thirds_ok|]. split; [split; [reflexivity|split; reflexivity]|]. split; [exists 0, 1; split; [lia|split; [lia|reflexivity]]|]. split; [split; [lia|reflexivity]|].
  intros j Hj. destruct j as [|[|[|j]]]; try lia; reflexivity.
Qed.

(** * C163: with --separate_comps the runs cluster the nodes with positive probability *)
Theorem C163_separate : forall setord rng n_meta n_sub n compressed rtol norm M t p A label, is_iteration_order setord -> (forall s, shuffles (rng s)) ->
  init_ok n M t p -> (forall r, rtol = Some r -> (0 <= r)%num) -> load_init n compressed rtol norm M t p = Some A -> labels_of n (value (a_PT A)) label ->
  exists K, forall pool seeds, seeds <> [] ->
  exists clusters stabs, all_runs_init setord rng n_meta n_sub SeparateComps pool label A seeds = Some (clusters, stabs, seeds) /\ length clusters = length seeds /\
    forall k, k < length seeds -> let cl := nth k clusters [] in
      NoDup (concat cl) /\ (forall x, In x (concat cl) <-> present n p x) /\ no_empty cl /\ within_components n (symmetrised M) cl /\
      nth k stabs 0%num = (total (toarray A) cl + K)%num.
Proof.
  intros setord rng n_meta n_sub n c rtol norm M t p A label Hso Hrng HI Hr E [HL Hlab].
  destruct (load_init_inv n c rtol norm M t p A HI Hr E) as (L & HG & HZ & HW & HP & HT). pose proof HI as (Hn & Ht & Hlen & HU & H0 & Hp & Hsum & Hz).
  destruct (built_inv _ _ _ _ _ (proj1 HW)) as (_ & Ep & _ & _ & _ & _ & Hv & _).
  assert (HV : forall i j, i < n -> j < n -> value (a_PT A) i j = L i j) by (intros i j Hi Hj; rewrite Hv by assumption; now apply csr_of_value).
  assert (HLink : forall x y, x < n -> y < n -> (0 < value (csr_of n L) x y)%num -> nth x label 0 = nth y label 0).
  { intros x y Hx Hy H. apply Hlab; [exact Hx|exact Hy|]. apply linked_step; [exact Hx|exact Hy|]. now rewrite Hv. }
  (* a node linked to another one has a positive entry *)
  assert (HStep : forall x y, linked n (value (a_PT A)) x y -> x <> y -> (exists a, a < n /\ x < n /\ (0 < L x a)%num) /\ (exists a, a < n /\ y < n /\ (0 < L y a)%num)).
  { intros x y HLk. induction HLk as [x y (Hx & Hy & Hxy)|x|x y _ IH|x y z _ IH1 _ IH2]; intros Hne.
    - rewrite HV in Hxy by assumption. split; [now exists y|]. exists x. split; [exact Hx|]. split; [exact Hy|]. destruct HG as (_ & Hs & _). now rewrite Hs.
    - now exfalso.
    - destruct IH as [I1 I2]; auto.
    - destruct (Nat.eq_dec x y) as [->|N1].
      + apply IH2. exact Hne.
      + destruct (IH1 N1) as [I1 _]. destruct (Nat.eq_dec y z) as [->|N2]; [now apply IH1|]. split; [exact I1|]. now apply IH2. }
  assert (HRows : forall cc, In cc (large label) -> rows_of n (csr_of n L) label cc).
  { intros cc Hc x Hx. apply filter_In in Hc. destruct Hc as [_ Hc]. unfold is_single in Hc.
    assert (Y : exists y, In y (nodes_of label cc) /\ y <> x).
    { assert (ND := nodes_of_NoDup label cc). destruct (nodes_of label cc) as [|a [|b l]]; [destruct Hx|discriminate Hc|].
      inversion ND as [|? ? NI _]; subst. destruct (Nat.eq_dec a x) as [->|N]; [exists b; split; [cbn; auto|intros ->; apply NI; now left]|exists a; split; [now left|exact N]]. }
    destruct Y as (y & Hy & Hne). apply nodes_of_In in Hx, Hy. rewrite HL in Hx, Hy. destruct Hx as [Hx Ex], Hy as [Hy Ey].
    assert (HLk : linked n (value (a_PT A)) x y) by (apply Hlab; congruence). destruct (HStep x y HLk) as [(a & Ha & _ & Hpos) _]; [congruence|].
    rewrite (sumN_ext n _ (L x)) by (intros; now apply csr_of_value). apply (row_positive n L x a); [intros; now apply HG|exact Ha|exact Hpos]. }
  destruct (load_separate_spec n (csr_of n L) _ A label HW HP HL HLink HRows) as (comps & El & HF).
  set (singles := filter (fun x => qltb 0%num (nth x (fst (vectors_of A)) 0%num)) (flat_map (nodes_of label) (small label))).
  exists (constant A label comps singles). intros pool seeds Hs. unfold all_runs_init, load_separate_init. rewrite El. fold singles.
  assert (Esh := separate_shared n (csr_of n L) _ A label HW HP HL HLink HRows comps HF).
  assert (G : (if pool then shared_list comps else Some comps) = Some comps) by now destruct pool. rewrite G.
  destruct (separate_some setord rng n_meta n_sub Hso Hrng n (csr_of n L) _ A label HW HP HL HLink HRows comps singles seeds HF Hs) as (clusters & stabs & Er & HR & Hlc).
  exists clusters, stabs. split; [exact Er|]. split; [exact Hlc|]. intros k Hk. set (cl := nth k clusters []). cbv zeta. fold cl. rewrite <- Hlc in Hk.
  destruct (Forall2_nth _ _ _ [] 0%num k HR Hk) as (R1 & R2 & R3 & R4). fold cl in R1, R2, R3, R4.
  assert (Evec : fst (vectors_of A) = p) by (unfold vectors_of; now rewrite Ep).
  assert (HLS := large_small n (csr_of n L) _ A label HW HL HLink).
  assert (HND : NoDup (concat (map (nodes_of label) (large label)) ++ flat_map (nodes_of label) (small label))) by (apply (Permutation_NoDup (Permutation_sym HLS)), seq_NoDup).
  apply NoDup_app_iff in HND. destruct HND as (N1 & N2 & N3).
  split; [|split; [|split; [exact R3|split]]].
  - apply (Permutation_NoDup (Permutation_sym R2)). apply NoDup_app_iff. split; [exact N1|]. split; [now apply NoDup_filter|].
    intros x Hx Hy. apply filter_In in Hy. now apply (N3 x Hx).
  - intros x. assert (A1 : In x (concat cl) <-> In x (concat (map (nodes_of label) (large label)) ++ singles)) by (split; apply Permutation_in; [exact R2|now apply Permutation_sym]).
    assert (A2 : In x (concat (map (nodes_of label) (large label)) ++ flat_map (nodes_of label) (small label)) <-> x < n).
    { rewrite <- seq_In_iff. split; apply Permutation_in; [exact HLS|now apply Permutation_sym]. }
    rewrite A1, in_app_iff. rewrite in_app_iff in A2. unfold singles. rewrite filter_In, Evec. unfold present.
    destruct (qltb_spec 0%num (nth x p 0%num)) as [Px|Px].
    + intuition auto.
    + assert (NL : ~ In x (concat (map (nodes_of label) (large label)))); [|intuition (try discriminate; try contradiction)].
      intros Hx. apply in_concat in Hx. destruct Hx as (d & Hd & Hx). apply in_map_iff in Hd. destruct Hd as (cc & <- & Hc).
      assert (Hrow := HRows cc Hc x Hx). apply nodes_of_In in Hx. rewrite HL in Hx. destruct Hx as [Hx _].
      assert (E0 : nth x p 0%num = 0%num) by (destruct (qle_lt_or_eq _ _ (nth_nonneg p x Hp)) as [LL|LL]; [contradiction|now symmetry]).
      rewrite (sumN_ext n _ (L x)), sumN_zero in Hrow; [revert Hrow; apply Qcle_not_lt, Qcle_refl| |intros; now apply csr_of_value].
      intros j Hj. destruct HG as (_ & _ & HGz). now apply HGz.
  - intros d x y Hd Hx Hy. assert (Hxn : forall z, In z d -> z < n).
    { intros z Hz'. assert (X : In z (concat cl)) by (apply in_concat; eauto). apply (Permutation_in _ R2) in X.
      apply seq_In_iff. apply (Permutation_in _ HLS). apply in_app_iff. apply in_app_iff in X. destruct X as [X|X]; [now left|right]. apply filter_In in X. apply X. }
    assert (HLk : linked n (value (a_PT A)) x y) by (apply Hlab; [now apply Hxn|now apply Hxn|now apply (R4 d)]).
    clear - HLk HV HZ HI HG. induction HLk as [x y (Hx & Hy & Hxy)|x|x y _ IH|x y z _ IH1 _ IH2].
    + destruct (Nat.eq_dec x y) as [->|N]; [apply rst_refl|]. rewrite HV in Hxy by assumption. apply rst_step. split; [exact Hx|]. split; [exact Hy|].
      assert (S0 : (0 <= symmetrised M x y)%num) by (apply (symmetrised_nonneg n); [apply HI|exact Hx|exact Hy]).
      destruct (qle_lt_or_eq _ _ S0) as [Lt|Eq]; [exact Lt|]. exfalso. rewrite (HZ x y Hx Hy N) in Hxy by now symmetry. revert Hxy. apply Qcle_not_lt, Qcle_refl.
    + apply rst_refl.
    + now apply rst_sym.
    + now apply rst_trans with y.
  - exact R1.
Qed.
Print Assumptions C163_separate.
Lemma two_one_zero_labels compressed norm A : load_init 4 compressed None norm two_one_zero (qn 4) two_one_zero_p = Some A -> labels_of 4 (value (a_PT A)) [0; 0; 1; 2].
Proof.
  intros E. split; [reflexivity|].
  assert (V : forall i j, i < 4 -> j < 4 -> value (a_PT A) i j = (symmetrised two_one_zero i j / qn 4)%num).
  { destruct two_one_zero_ok as [HI HM]. destruct (C161_exact 4 compressed norm _ _ _ HI HM) as (A' & E' & HT & _). rewrite E in E'. injection E' as <-.
    assert (Hr : forall r, None = Some r -> (0 <= r)%num) by discriminate.
    destruct (load_init_inv 4 compressed None norm _ _ _ A HI Hr E) as (L & _ & _ & HW & _ & HT').
    destruct (built_inv _ _ _ _ _ (proj1 HW)) as (_ & _ & _ & _ & _ & _ & Hv & _). intros i j Hi Hj. rewrite Hv, csr_of_value by assumption.
    specialize (HT i j Hi Hj). rewrite (HT' i j Hi Hj) in HT. revert HT. generalize (L i j) (symmetrised two_one_zero i j / qn 4)%num (nth i two_one_zero_p 0 * nth j two_one_zero_p 0)%num.
    intros a b c H. replace a with (a - c + c)%num by ring. rewrite H. ring. }
  assert (S1 : forall i j, i < 4 -> j < 4 -> (0 < value (a_PT A) i j)%num -> nth i [0; 0; 1; 2] 0 = nth j [0; 0; 1; 2] 0).
  { intros i j Hi Hj. rewrite V by assumption. destruct i as [|[|[|[|i]]]]; try lia; (destruct j as [|[|[|[|j]]]]; try lia; try reflexivity; intros H; vm_compute in H; discriminate H). }
  intros x y Hx Hy. split.
  - intros H. destruct (Nat.eq_dec x y) as [->|N]; [apply rst_refl|]. apply linked_step; [exact Hx|exact Hy|]. rewrite V by assumption.
    destruct x as [|[|[|[|x]]]]; try lia; (destruct y as [|[|[|[|y]]]]; try lia; try discriminate H; try contradiction; reflexivity).
  - intros H. clear Hx Hy. induction H as [a b (Ha & Hb & Hp)|a|a b _ IH|a b c _ IH1 _ IH2]; [now apply S1|reflexivity|now symmetry|congruence].
Qed.
Example C163_applies : is_iteration_order keep_order /\ (forall s : nat, shuffles ((fun _ => LouvainProps.in_order) s)) /\ init_ok 4 two_one_zero (qn 4) two_one_zero_p /\
  exists A, load_init 4 false None (Some 10) two_one_zero (qn 4) two_one_zero_p = Some A /\ labels_of 4 (value (a_PT A)) [0; 0; 1; 2] /\ ~ present 4 two_one_zero_p 3.
Proof.
  split; [exact keep_ok|]. split; [exact ClustProps.in_order_ok|]. destruct two_one_zero_ok as [HI HM]. split; [exact HI|].
  destruct (C161_exact 4 false (Some 10) _ _ _ HI HM) as (A & E & _). exists A. split; [exact E|]. split; [now apply (two_one_zero_labels false (Some 10))|].
  intros [_ H]. vm_compute in H. discriminate H.
Qed.

(** * C164: without options every run gives a partition of all nodes
    Full statement: for integrals that agree with their density. False when the last node has
    probability zero: its row is empty, and the search for its diagonal entry reads after the
    end of the arrays (C29). *)
Definition C164_statement : Prop := forall setord rng n_meta n_sub n compressed norm M t p A label pool seeds, is_iteration_order setord -> (forall s, shuffles (rng s)) ->
  init_ok n M t p -> marginals n M t p -> load_init n compressed None norm M t p = Some A -> labels_of n (value (a_PT A)) label -> seeds <> [] ->
  exists clusters stabs, all_runs_init setord rng n_meta n_sub AllNodes pool label A seeds = Some (clusters, stabs, seeds) /\ length clusters = length seeds /\
    forall k, k < length seeds -> partitions n (nth k clusters []) /\ no_empty (nth k clusters []) /\ nth k stabs 0%num = total (toarray A) (nth k clusters []).
Definition last_absent : list num := [qf 1 2; qf 1 2; 0%num].
Lemma last_absent_ok : init_ok 3 one_link (qn 2) last_absent /\ marginals 3 one_link (qn 2) last_absent.
Proof.
  split.
  - apply one_link_ok; [reflexivity| | | |]; try reflexivity; [intros x [<-|[<-|[<-|[]]]]; vm_compute; discriminate|vm_compute; now apply Qc_is_canon].
  - intros i Hi. destruct i as [|[|[|i]]]; try lia; vm_compute; now apply Qc_is_canon.
Qed.
Theorem C164_absent_refuted : ~ C164_statement.
Proof.
  intros H. destruct last_absent_ok as [HI HM]. destruct (C161_exact 3 false None _ _ _ HI HM) as (A & E & _).
  assert (HLab : labels_of 3 (value (a_PT A)) [0; 0; 1]).
  { split; [reflexivity|].
    assert (Hr : forall r, None = Some r -> (0 <= r)%num) by discriminate.
    assert (X : match load_init 3 false None None one_link (qn 2) last_absent with
                | Some A => forallb (fun x => forallb (fun y => Bool.eqb (nth x [0; 0; 1] 0 =? nth y [0; 0; 1] 0) (qltb 0%num (value (a_PT A) x y) || (x =? y))) (seq 0 3)) (seq 0 3)
                | None => false end = true) by (vm_compute; reflexivity).
    rewrite E in X.
    assert (HB' : forall x y, x < 3 -> y < 3 -> nth x [0; 0; 1] 0 = nth y [0; 0; 1] 0 <-> (0 < value (a_PT A) x y)%num \/ x = y).
    { intros x y Hx Hy. rewrite forallb_forall in X. specialize (X x (proj2 (seq_In_iff 3 x) Hx)). cbv beta in X. rewrite forallb_forall in X. specialize (X y (proj2 (seq_In_iff 3 y) Hy)). cbv beta in X.
      apply Bool.eqb_prop in X. destruct (Nat.eqb_spec (nth x [0; 0; 1] 0) (nth y [0; 0; 1] 0)), (qltb_spec 0%num (value (a_PT A) x y)), (Nat.eqb_spec x y); cbn [orb] in X; try discriminate; tauto. }
    intros x y Hx Hy. split.
    - intros HE. apply HB' in HE; [|exact Hx|exact Hy]. destruct HE as [HE|<-]; [|apply rst_refl]. now apply linked_step.
    - intros HE. clear Hx Hy. induction HE as [a b (Ha & Hb & Hp)|a|a b _ IH|a b c _ IH1 _ IH2]; [|reflexivity|now symmetry|congruence]. apply HB'; [exact Ha|exact Hb|now left]. }
  destruct (H keep_order (fun _ => LouvainProps.in_order) 10 10 3 false None one_link (qn 2) last_absent A [0; 0; 1] false [7] keep_ok ClustProps.in_order_ok HI HM E HLab ltac:(discriminate)) as (clusters & stabs & Er & _).
  assert (X : match load_init 3 false None None one_link (qn 2) last_absent with
              | Some A => match all_runs_init keep_order (fun _ => LouvainProps.in_order) 10 10 AllNodes false [0; 0; 1] A [7] with Some _ => false | None => true end
              | None => false end = true) by (vm_compute; reflexivity).
  rewrite E, Er in X. discriminate X.
Qed.
Print Assumptions C164_absent_refuted.
Theorem C164_present_partial : forall setord rng n_meta n_sub n compressed rtol k M t p label pool seeds, is_iteration_order setord -> (forall s, shuffles (rng s)) ->
  init_ok n M t p -> tolerance_ok compressed rtol -> (exists i j, i < n /\ j < n /\ (0 < M i j)%num) -> (forall i, i < n -> present n p i) ->
  (rtol = None -> forall i, i < n -> exists j, j < n /\ (0 < symmetrised M i j)%num) -> seeds <> [] ->
  exists A, load_init n compressed rtol (Some k) M t p = Some A /\
  exists clusters stabs, all_runs_init setord rng n_meta n_sub AllNodes pool label A seeds = Some (clusters, stabs, seeds) /\ length clusters = length seeds /\
    forall k, k < length seeds -> partitions n (nth k clusters []) /\ no_empty (nth k clusters []) /\ nth k stabs 0%num = total (toarray A) (nth k clusters []).
Proof.
  intros setord rng n_meta n_sub n c rtol k M t p label pool seeds Hso Hrng HI Hr HE HPr Hrow Hs. pose proof HI as (Hn & _ & _ & _ & _ & Hp & _).
  destruct (load_init_some n c rtol k M t p HI Hr HE (fun e i Hi => Hrow e i (proj1 Hi))) as (G & A & HG & HR & EA & _ & HW & _). exists A. split; [exact EA|].
  destruct (init_iter_inv n p Hp k G HG) as (HG' & HR' & _). specialize (HR' HR). set (L := init_iter n k p G) in *.
  assert (HU : usable n (csr_of n L) (PVec p p) true A).
  { destruct HW as (W1 & W2 & W3 & W4). split; [exact W1|]. split; [exact W2|]. split; [exact W3|]. split; [exact W4|].
    intros i Hi. rewrite (sumN_ext n _ (L i)) by (intros; now apply csr_of_value). apply HR'; [exact Hi|now apply HPr]. }
  assert (Esh : shared (fst (vectors_of A)) (snd (vectors_of A)) A = Some A).
  { assert (HC := ac_copy_id n _ _ true A (proj1 HU)). unfold ac_copy in HC. destruct (built_inv _ _ _ _ _ (proj1 HU)) as (_ & Ep & ES & _). rewrite ES, Ep in HC. unfold shared, vectors_of. now rewrite Ep. }
  unfold all_runs_init, all_runs. assert (G' : (if pool then shared (fst (vectors_of A)) (snd (vectors_of A)) A else Some A) = Some A) by now destruct pool. rewrite G'.
  destruct (runs_spec (run_whole setord rng n_meta n_sub A) (fun cl r => partitions n cl /\ no_empty cl /\ r = total (toarray A) cl) seeds) as (clusters & stabs & Er & HF & Hlen); [|exact Hs|].
  - intros s. destruct (run_whole_spec setord rng n_meta n_sub Hso Hrng n _ _ A s HU Hn) as (cl & E & H1 & H2). exists cl, (total (toarray A) cl). split; [exact E|]. split; [now apply partitions_perm|]. auto.
  - exists clusters, stabs. split; [exact Er|]. split; [exact Hlen|]. intros j Hj. rewrite <- Hlen in Hj. apply (Forall2_nth _ _ _ [] 0%num j HF Hj).
Qed.
Print Assumptions C164_present_partial.
Definition halves : list num := [qf 1 2; qf 1 4; qf 1 4].
Example C164_applies : is_iteration_order keep_order /\ (forall s : nat, shuffles ((fun _ => LouvainProps.in_order) s)) /\ init_ok 3 one_link (qn 2) halves /\ tolerance_ok true (Some (qf 1 100)) /\
  (exists i j, i < 3 /\ j < 3 /\ (0 < one_link i j)%num) /\ (forall i, i < 3 -> present 3 halves i).
Proof.
  split; [exact keep_ok|]. split; [exact ClustProps.in_order_ok|]. split.
  - apply one_link_ok; [reflexivity| | | |]; try reflexivity; [intros x [<-|[<-|[<-|[]]]]; vm_compute; discriminate|vm_compute; now apply Qc_is_canon].
  - split; [split; [reflexivity|split; reflexivity]|]. split; [exists 0, 1; split; [lia|split; [lia|reflexivity]]|].
    intros i Hi. split; [exact Hi|]. destruct i as [|[|[|i]]]; try lia; reflexivity.
Qed.
(** the normalisation of the rows is the one of the kernel, also for other files than those above: a
    row with an entry gets the wanted sum, be it zero *)
Theorem C162_kernel : forall n p (M : mat) i j, i < n -> j < n ->
  value (csr_row_normalise (csr_of n M) n (fun k => nth k p 0%num)) i j = row_normalise_vec n p M i j /\
  (forall x, x <> 0%num -> value (csr_row_normalise (csr_of n M) n (fun _ => x)) i j = row_normalise_to n x M i j) /\
  (sumN n (M i) <> 0%num -> sumN n (row_normalise_vec n p M i) = nth i p 0%num).
Proof.
  intros n p M i j Hi Hj. assert (HO := csr_of_ok n M).
  assert (HS : stored_sum (csr_of n M) i = sumN n (M i)).
  { rewrite (stored_sum_value n) by assumption. apply sumN_ext. intros k Hk. now apply csr_of_value. }
  assert (HV : forall j, j < n -> value (csr_row_normalise (csr_of n M) n (fun k => nth k p 0%num)) i j = row_normalise_vec n p M i j).
  { clear j Hj. intros j Hj. destruct (qeqb_spec (nth i p 0%num) 0%num) as [E|E].
    - destruct (normalise_rows n (csr_of n M) (fun k => nth k p 0%num) HO) as [_ Hr]. unfold value at 1. rewrite Hr by exact Hi. rewrite sumL_map. cbn [fst snd]. unfold scaled, row_normalise_vec. rewrite HS, E.
      destruct (qeqb (sumN n (M i)) 0%num) eqn:Es; [transitivity (value (csr_of n M) i j); [reflexivity|now apply csr_of_value]|].
      destruct (qeqb_spec 0%num 0%num) as [_|N]; [|now destruct N]. set (c := (sumN n (M i) / qn (length (row_entries (csr_of n M) i)))%num). rewrite csr_of_row by exact Hi. unfold entries_of. rewrite sumL_map. cbn [fst snd].
      rewrite sumL_filter. rewrite (sumL_ext _ (fun k => if k =? j then (if qeqb (M i j) 0%num then 0 else M i j - c)%num else 0%num)).
      2:{ intros k _. destruct (Nat.eqb_spec k j) as [->|]; [destruct (qeqb (M i j) 0%num)|destruct (qeqb (M i k) 0%num)]; reflexivity. }
      fold (sumN n (fun k => if k =? j then (if qeqb (M i j) 0%num then 0 else M i j - c)%num else 0%num)). rewrite sumN_delta by exact Hj.
      destruct (qeqb_spec (M i j) 0%num) as [->|]; reflexivity.
    - rewrite (scaled_value n) by assumption. rewrite HS, csr_of_value by assumption. unfold row_normalise_vec. destruct (qeqb_spec (sumN n (M i)) 0%num) as [|Es]; [reflexivity|].
      destruct (qeqb_spec (nth i p 0%num) 0%num) as [|_]; [contradiction|]. field. split; assumption. }
  split; [now apply HV|]. split.
  - intros x Hx. rewrite (scaled_value n) by assumption. rewrite HS, csr_of_value by assumption. unfold row_normalise_to. destruct (qeqb_spec (sumN n (M i)) 0%num) as [|Es]; [reflexivity|]. field. split; assumption.
  - intros Hs. rewrite <- (scaled_sum n (csr_of n M) (fun k => nth k p 0%num) i HO Hi) by now rewrite HS.
    rewrite (stored_sum_value n) by (first [exact Hi | apply (normalise_rows n _ _ HO)]). apply sumN_ext. intros k Hk. symmetry. now apply HV.
Qed.
Example C162_kernel_applies : let M := fun i j => if (i =? 0) && (j <? 2) then qn (S j) else 0%num in
  sumN 3 (M 0) = qn 3 /\ row_normalise_vec 3 [] M 0 0 = (- qf 1 2)%num /\ sumN 3 (row_normalise_vec 3 [qf 1 2] M 0) = qf 1 2.
Proof. cbv zeta. repeat split; vm_compute; now apply Qc_is_canon. Qed.
Print Assumptions C162_kernel.
Print Assumptions C161_exact.
Print Assumptions C162_raises.
Print Assumptions C162_zero_rows_refuted.
Print Assumptions C162_sum_zero_partial.
