(** Lemmas about the runs. *)
From Verif Require Import Base PartitionModel PartitionSpec PartitionProofs LouvainModel LouvainSpec LouvainProofs
  SparseModel SparseSpec SparseProofs SparseOpsProofs SparseConvProofs AutocovModel AutocovSpec AutocovProofs
  AutocovAggProofs AutocovCtorProofs SparseLouvainModel SparseLouvainSpec SparseLouvainProofs
  MatProofs TransModel TransSpec FlowModel FlowSpec CovModel CovSpec MultiModel MultiSpec MultiProofs ClustSearchProofs ClustModel ClustSpec ClustProofs.

Lemma sum_parts (f : nat -> num) cl : sumN (length cl) (fun b => sumL f (nth b cl [])) = sumL f (concat cl).
Proof.
  induction cl as [|c cl IH]; [reflexivity|]. unfold sumN. cbn [length seq]. rewrite sumL_cons. cbn [nth concat]. rewrite sumL_app. f_equal.
  rewrite <- IH. unfold sumN. rewrite <- seq_shift, sumL_map. reflexivity.
Qed.
Lemma sum_over_flat S (f : nat -> list nat) a b : sum_over S (flat_map f a) (flat_map f b) = sumL (fun i => sumL (fun j => sum_over S (f i) (f j)) b) a.
Proof.
  unfold sum_over. induction a as [|i a IH]; [reflexivity|]. cbn [flat_map]. rewrite sumL_app, sumL_cons, IH. f_equal. clear IH.
  induction (f i) as [|x l IH]; [rewrite sumL_nil; symmetry; apply sumL_zero; intros; reflexivity|]. rewrite sumL_cons, IH.
  rewrite (sumL_ext (fun j => sumL (fun i0 => sumL (S i0) (f j)) (x :: l)) (fun j => sumL (S x) (f j) + sumL (fun i0 => sumL (S i0) (f j)) l)%num) by (intros j Hj; exact (sumL_cons (fun i0 => sumL (S i0) (f j)) x l)).
  rewrite sumL_add. f_equal. clear. induction b as [|j b IH]; [reflexivity|]. cbn [flat_map]. now rewrite sumL_app, sumL_cons, IH.
Qed.

(** what is needed of the matrix apart from its rows *)
Definition flows (n : nat) (PT : csr) (p : probs) (A : autocov) : Prop :=
  built n PT p true A /\ no_repetition PT /\ normalised_probs n p /\ (forall i j, i < n -> j < n -> (0 <= value PT i j)%num).
Lemma usable_flows n PT p A : usable n PT p true A -> flows n PT p A.
Proof. intros (H1 & H2 & H3 & H4 & _). split; [exact H1|]. split; [exact H2|]. split; [exact H3|exact H4]. Qed.

Section Comp.
Context (setord : list nat -> list nat) (rng : nat -> nat -> nat -> nat -> list nat) (n_meta n_sub : nat).
Hypothesis Hso : is_iteration_order setord.
Hypothesis Hrng : forall s, shuffles (rng s).
Context (n : nat) (PT : csr) (p : probs) (A : autocov) (label : list nat).
Hypothesis HW : flows n PT p A.
Hypothesis HP : positive_entries PT.
Hypothesis HL : length label = n.
Hypothesis HLink : forall x y, x < n -> y < n -> (0 < value PT x y)%num -> nth x label 0 = nth y label 0.
(** the nodes of a component have flow *)
Definition rows_of (c : nat) : Prop := forall x, In x (nodes_of label c) -> (0 < sumN n (value PT x))%num.

Lemma comp_meta c : nodes_of label c <> [] -> rows_of c ->
  exists PT' p' B, ac_aggregate A (idx_list label c) = Some B /\ usable_meta (S (length (nodes_of label c))) PT' p' true B /\
    (forall a b, a < S (length (nodes_of label c)) -> b < S (length (nodes_of label c)) ->
       toarray B a b = sum_over (toarray A) (nth a (idx_list label c) []) (nth b (idx_list label c) [])).
Proof.
  intros Hc Hrow. pose proof HW as (HA & Hr & Hp & H0).
  assert (Hnn : 0 < n).
  { rewrite <- HL. destruct (nodes_of label c) as [|x l] eqn:E; [contradiction|]. assert (Hx : In x (nodes_of label c)) by (rewrite E; now left).
    apply nodes_of_In in Hx. lia. }
  assert (Hcl : partitions n (idx_list label c)) by (rewrite <- HL; apply idx_list_partitions).
  destruct (ac_aggregate_spec n PT p true A (idx_list label c) Hnn HA Hp Hcl H0)
    as (PT' & p1' & p2' & B & E & HB & Hp' & Hr' & Hval & _ & _ & HT & Hpe).
  rewrite idx_list_length in *. exists PT', (PVec p1' p2'), B. split; [exact E|]. split; [|exact HT].
  assert (Hin : forall b x, In x (nth b (idx_list label c) []) -> x < n) by (intros b x Hx; now apply (cluster_props n (idx_list label c) b Hcl)).
  assert (Hnode : forall k, k < length (nodes_of label c) -> nth k (nodes_of label c) 0 < n /\ nth (nth k (nodes_of label c) 0) label 0 = c).
  { intros k Hk. rewrite <- HL. apply nodes_of_In. now apply nth_In. }
  assert (Hirr : ~ (0 < 0)%num) by (apply Qcle_not_lt, Qcle_refl).
  assert (Hcross : forall x y, In x (nodes_outside label c) -> In y (nodes_of label c) -> value PT x y = 0%num /\ value PT y x = 0%num).
  { intros x y Hx Hy. apply nodes_outside_In in Hx. apply nodes_of_In in Hy. rewrite HL in Hx, Hy. destruct Hx as [Hx Lx], Hy as [Hy Ly].
    split; [destruct (qle_lt_or_eq _ _ (H0 x y Hx Hy)) as [G|G]|destruct (qle_lt_or_eq _ _ (H0 y x Hy Hx)) as [G|G]]; try (now symmetry); exfalso; apply Lx.
    - rewrite (HLink x y Hx Hy G). exact Ly.
    - rewrite <- (HLink y x Hy Hx G). exact Ly. }
  split; [exact HB|]. split; [exact Hr'|]. split; [exact Hp'|]. split; [|split; [now apply Hpe|split; [|split]]].
  - intros a b Ha Hb. rewrite Hval by assumption. apply sumL_nonneg. intros i Hi. apply sumL_nonneg. intros j Hj. apply H0; eapply Hin; eassumption.
  - intros a Ha Hl. destruct a as [|k]; [lia|].
    rewrite (sumN_ext _ (value PT' (S k)) (fun b => sumL (value PT (nth k (nodes_of label c) 0)) (nth b (idx_list label c) []))).
    2:{ intros b Hb. rewrite Hval by assumption. rewrite idx_list_nth by lia. apply sum_over_single. }
    rewrite <- idx_list_length, sum_parts. apply partitions_perm in Hcl. rewrite (sumL_perm _ _ _ Hcl). apply Hrow. apply nth_In. lia.
  - intros j Hj Hl. destruct j as [|k]; [lia|]. rewrite !Hval by lia. rewrite idx_list_nth by lia.
    assert (Hk : In (nth k (nodes_of label c) 0) (nodes_of label c)) by (apply nth_In; lia).
    change (nth 0 (idx_list label c) []) with (nodes_outside label c). split; apply sumL_zero; intros x Hx.
    + apply sumL_zero. intros y [<-|[]]. exact (proj1 (Hcross x _ Hx Hk)).
    + destruct Hx as [<-|[]]. apply sumL_zero. intros y Hy. exact (proj2 (Hcross y _ Hy Hk)).
  - destruct (nodes_of label c); [contradiction|]. cbn [length]. lia.
Qed.

Lemma search_meta m PT' p' B seed : usable_meta m PT' p' true B ->
  exists c q, search setord rng n_meta n_sub B seed = Some (c, q) /\ s_A c = B /\
    if is_all_zeros B then q = full_partition m
    else valid q /\ no_empty (cluster_list q) /\ num_nodes q = m /\ alone q.
Proof.
  intros HB. unfold search, sparse_init. rewrite Nat.eqb_refl, (ac_copy_id m PT' p' true B (proj1 HB)). cbn [s_A].
  assert (Esz : a_size B = m) by apply (built_inv _ _ _ _ _ (proj1 HB)). rewrite Esz.
  unfold sparse_search. cbn [s_A]. destruct (is_all_zeros B) eqn:Hz.
  - unfold sp_find_louvain. rewrite Hz. eexists _, _. split; [reflexivity|]. split; reflexivity.
  - destruct (find_louvain_meta setord (orders_used rng (worker_options n_meta n_sub) seed) m PT' p' true B
      (o_thr (worker_options n_meta n_sub)) (o_meta (worker_options n_meta n_sub)) (o_sub (worker_options n_meta n_sub))
      Hso (Hrng seed) HB Hz) as (q & k & E & H1 & H2 & H3 & H4 & _).
    rewrite E. eexists _, _. split; [reflexivity|]. split; [reflexivity|]. auto.
Qed.

Lemma node_map_nth nodes i : 0 < i -> i <= length nodes -> node_map nodes i = Some (nth (i - 1) nodes 0).
Proof. intros H1 H2. destruct i as [|i]; [lia|]. cbn [node_map]. rewrite Nat.sub_succ, Nat.sub_0_r. apply nth_error_nth'. lia. Qed.
Lemma all_some_map_in {X Y} (f : X -> option Y) (g : X -> Y) l : (forall a, In a l -> f a = Some (g a)) -> all_some (map f l) = Some (map g l).
Proof.
  induction l as [|a l IH]; intros H; [reflexivity|]. cbn [map all_some]. rewrite (H a) by now left. rewrite IH by (intros; apply H; now right). reflexivity.
Qed.
(** the clusters of the component, and what the others contribute to the stability *)
Definition offset (c : nat) (B : autocov) : num :=
  if is_all_zeros B then (- sum_over (toarray A) (nodes_of label c) (nodes_of label c))%num
  else sum_over (toarray A) (nodes_outside label c) (nodes_outside label c).
Lemma run_comp_spec c seed : nodes_of label c <> [] -> rows_of c ->
  exists B cl, ac_aggregate A (idx_list label c) = Some B /\
    run_comp setord rng n_meta n_sub B (nodes_of label c) seed = Some (cl, total (toarray A) cl + offset c B)%num /\
    Permutation (concat cl) (nodes_of label c) /\ no_empty cl.
Proof.
  intros Hc Hrow. destruct (comp_meta c Hc Hrow) as (PT' & p' & B & EB & HB & HT). exists B. unfold offset.
  destruct (search_meta _ PT' p' B seed HB) as (o & q & Es & Eo & Hq).
  unfold run_comp. rewrite Es, Eo. set (nodes := nodes_of label c) in *. set (m := length nodes) in *.
  destruct (is_all_zeros B).
  - subst q. exists [nodes]. split; [exact EB|]. unfold get_num_clusters. rewrite full_partition_clusters by lia. cbn [length Nat.eqb].
    split; [|split].
    + f_equal. f_equal. unfold total. rewrite sumL_cons, sumL_nil. ring.
    + cbn [concat]. now rewrite app_nil_r.
    + constructor; [exact Hc|constructor].
  - destruct Hq as (Hv & Hne & Hn & Hal). assert (Hm : 0 < m) by (unfold m; destruct nodes; [contradiction|cbn [length]; lia]).
    destruct (alone_list q Hv Hal) as (rest & Eq).
    assert (Hlen : 1 < length (cluster_list q)) by (apply (alone_others q 1 Hv Hal); lia).
    assert (Hd0 : dget (n2c q) 0 = Some 0) by (apply Hv; now apply Hal).
    assert (Hperm : Permutation (concat rest) (seq 1 m)).
    { assert (X := valid_perm q Hv). rewrite Hn, Eq in X. cbn [concat app seq] in X. now apply Permutation_cons_inv in X. }
    assert (Hin : forall d i, In d rest -> In i d -> 0 < i /\ i <= m).
    { intros d i Hd Hi. assert (Hx : In i (seq 1 m)) by (apply (Permutation_in _ Hperm); apply in_concat; eauto). apply in_seq in Hx. lia. }
    set (g := fun i => nth (i - 1) nodes 0).
    exists (map (map g) rest). split; [exact EB|]. unfold get_num_clusters.
    destruct (Nat.eqb_spec (length (cluster_list q)) 1) as [|_]; [lia|]. rewrite Eq, Hd0. cbn [length Nat.eqb andb].
    rewrite (all_some_map_in _ (map g)).
    2:{ intros d Hd. apply all_some_map_in. intros i Hi. destruct (Hin d i Hd Hi). now apply node_map_nth. }
    split; [|split].
    + f_equal. f_equal. rewrite (stability_dense (S m) B q) by assumption.
      unfold compute_stability, clustered_autocov. rewrite Eq. cbn [map]. rewrite sumL_cons, sumL_map. cbn [nonempty].
      change (block (toarray B) [0] [0]) with (sum_over (toarray B) [0] [0]). rewrite sum_over_single, sumL_cons, sumL_nil.
      rewrite (HT 0 0) by lia. change (nth 0 (idx_list label c) []) with (nodes_outside label c).
      unfold total. rewrite sumL_map.
      rewrite (sumL_ext (fun x => if nonempty x then block (toarray B) x x else 0%num) (fun d => sum_over (toarray A) (map g d) (map g d))); [ring|].
      intros d Hd. assert (Hde : nonempty d = true).
      { unfold no_empty in Hne. rewrite Eq in Hne. inversion Hne; subst. rewrite Forall_forall in H2. specialize (H2 d Hd). now destruct d. }
      rewrite Hde. unfold block, sum_over. rewrite sumL_map. apply sumL_ext. intros i Hi. rewrite sumL_map. apply sumL_ext. intros j Hj.
      destruct (Hin d i Hd Hi), (Hin d j Hd Hj). rewrite HT by lia. destruct i as [|i]; [lia|]. destruct j as [|j]; [lia|].
      rewrite !idx_list_nth by (fold nodes; fold m; lia). unfold g. rewrite !Nat.sub_succ, !Nat.sub_0_r. fold nodes. rewrite sum_over_single, sumL_cons, sumL_nil. ring.
    + rewrite <- concat_map. apply (Permutation_trans (Permutation_map g Hperm)).
      rewrite <- seq_shift, map_map. unfold g. rewrite (map_ext _ (fun i => nth i nodes 0)) by (intros i; now rewrite Nat.sub_succ, Nat.sub_0_r).
      unfold m. rewrite (map_nth_seq nodes 0). apply Permutation_refl.
    + unfold no_empty in *. rewrite Eq in Hne. inversion Hne; subst. apply Forall_map. rewrite Forall_forall in *. intros d Hd. specialize (H2 d Hd). now destruct d.
Qed.

(** ** All components *)
Lemma components_In c : In c (components label) <-> nodes_of label c <> [].
Proof.
  unfold components. rewrite unique_In. split.
  - intros H. apply (In_nth _ _ 0) in H. destruct H as (x & Hx & E). intros N. assert (G : In x (nodes_of label c)) by (apply nodes_of_In; auto). now rewrite N in G.
  - destruct (nodes_of label c) as [|x l] eqn:E; [congruence|]. intros _. assert (G : In x (nodes_of label c)) by (rewrite E; now left).
    apply nodes_of_In in G. destruct G as [G1 <-]. now apply nth_In.
Qed.
Lemma components_NoDup : NoDup (components label).
Proof. apply SparseProofs.sorted_NoDup. apply unique_sorted. Qed.
Lemma components_cover : Permutation (concat (map (nodes_of label) (components label))) (seq 0 n).
Proof.
  apply NoDup_perm_set; [|apply seq_NoDup|].
  - assert (G : forall l, NoDup l -> NoDup (concat (map (nodes_of label) l))).
    { induction l as [|c l IH]; intros Hnd; [constructor|]. inversion Hnd; subst. cbn [map concat]. apply NoDup_app_iff. split; [apply nodes_of_NoDup|]. split; [now apply IH|].
      intros x Hx Hy. apply in_concat in Hy. destruct Hy as (d & Hd & Hy). apply in_map_iff in Hd. destruct Hd as (c' & <- & Hc').
      apply nodes_of_In in Hx, Hy. destruct Hx as [_ Hx], Hy as [_ Hy]. apply H1. congruence. }
    apply G. apply components_NoDup.
  - intros x. rewrite seq_In_iff, <- HL. split.
    + intros H. apply in_concat in H. destruct H as (d & Hd & Hx). apply in_map_iff in Hd. destruct Hd as (c & <- & _). apply nodes_of_In in Hx. apply Hx.
    + intros H. apply in_concat. exists (nodes_of label (nth x label 0)). split; [|now apply nodes_of_In]. apply in_map. apply components_In.
      intros N. assert (G : In x (nodes_of label (nth x label 0))) by now apply nodes_of_In. now rewrite N in G.
Qed.
Definition large : list nat := filter (fun c => negb (is_single label c)) (components label).
Definition small : list nat := filter (is_single label) (components label).
Lemma load_separate_spec : (forall c, In c large -> rows_of c) -> exists comps, load_separate label A = Some (comps, flat_map (nodes_of label) small) /\
  Forall2 (fun c x => ac_aggregate A (idx_list label c) = Some (fst x) /\ snd x = nodes_of label c) large comps.
Proof.
  intros Hrows. unfold load_separate. fold large. fold small.
  assert (G : forall l, (forall c, In c l -> nodes_of label c <> []) -> (forall c, In c l -> rows_of c) -> exists comps,
    all_some (map (fun c => match ac_aggregate A (idx_list label c) with Some B => Some (B, nodes_of label c) | None => None end) l) = Some comps /\
    Forall2 (fun c x => ac_aggregate A (idx_list label c) = Some (fst x) /\ snd x = nodes_of label c) l comps).
  { induction l as [|c l IH]; intros H Hr; [exists []; split; [reflexivity|constructor]|].
    destruct IH as (comps & E & HF); [intros; apply H; now right|intros; apply Hr; now right|].
    destruct (comp_meta c (H c (or_introl eq_refl)) (Hr c (or_introl eq_refl))) as (_ & _ & B & EB & _).
    exists ((B, nodes_of label c) :: comps). cbn [map all_some]. rewrite EB, E. split; [reflexivity|]. constructor; [split; [exact EB|reflexivity]|exact HF]. }
  destruct (G large) as (comps & E & HF).
  - intros c Hc. apply filter_In in Hc. apply components_In. apply Hc.
  - exact Hrows.
  - rewrite E. exists comps. split; [reflexivity|exact HF].
Qed.
(** the constant by which the reported stability differs *)
Definition constant (comps : list (autocov * list nat)) (singles : list nat) : num :=
  (sumL (fun cx => offset (fst cx) (fst (snd cx))) (combine large comps)
   - sumL (fun x => sum_over (toarray A) [x] [x]) singles)%num.
Lemma total_app S a b : total S (a ++ b) = (total S a + total S b)%num.
Proof. unfold total. apply sumL_app. Qed.
Lemma single_nodes c : In c small -> nodes_of label c = [nth 0 (nodes_of label c) 0].
Proof. unfold small. rewrite filter_In. unfold is_single. intros [_ E]. apply Nat.eqb_eq in E. destruct (nodes_of label c) as [|x [|y l]]; try discriminate. reflexivity. Qed.
Lemma run_separate_some comps singles seed : (forall c, In c large -> rows_of c) ->
  Forall2 (fun c x => ac_aggregate A (idx_list label c) = Some (fst x) /\ snd x = nodes_of label c) large comps ->
  exists cl, run_separate setord rng n_meta n_sub comps singles seed = Some (cl, total (toarray A) cl + constant comps singles, seed)%num /\
    Permutation (concat cl) (concat (map (nodes_of label) large) ++ singles) /\ no_empty cl /\
    forall d x y, In d cl -> In x d -> In y d -> nth x label 0 = nth y label 0.
Proof.
  intros Hrows HF. unfold run_separate, constant.
  assert (G : forall l comps, Forall2 (fun c x => ac_aggregate A (idx_list label c) = Some (fst x) /\ snd x = nodes_of label c) l comps ->
    (forall c, In c l -> nodes_of label c <> []) -> (forall c, In c l -> rows_of c) ->
    exists r, all_some (map (fun x => run_comp setord rng n_meta n_sub (fst x) (snd x) seed) comps) = Some r /\
      Permutation (concat (concat (map fst r))) (concat (map (nodes_of label) l)) /\ no_empty (concat (map fst r)) /\
      sumL snd r = (total (toarray A) (concat (map fst r)) + sumL (fun cx => offset (fst cx) (fst (snd cx))) (combine l comps))%num /\
      forall d x y, In d (concat (map fst r)) -> In x d -> In y d -> nth x label 0 = nth y label 0).
  { clear HF comps. induction 1 as [|c [B nodes] l comps [EB En] HF IH]; intros H Hr.
    - exists []. split; [reflexivity|]. split; [constructor|]. split; [constructor|]. split; [reflexivity|intros d x y []].
    - destruct IH as (r & Er & P1 & P2 & P3 & P4); [intros; apply H; now right|intros; apply Hr; now right|]. cbn [fst snd] in EB, En. subst nodes.
      destruct (run_comp_spec c seed (H c (or_introl eq_refl)) (Hr c (or_introl eq_refl))) as (B' & cl & EB' & Ec & C1 & C2). rewrite EB in EB'. injection EB' as <-.
      exists ((cl, total (toarray A) cl + offset c B)%num :: r). cbn [map all_some fst snd]. rewrite Ec, Er. split; [reflexivity|]. cbn [map concat fst combine].
      rewrite concat_app. split; [now apply Permutation_app|]. split; [now apply Forall_app|]. split.
      + rewrite !sumL_cons, P3, total_app. cbn [fst snd]. ring.
      + intros d x y Hd Hx Hy. apply in_app_iff in Hd. destruct Hd as [Hd|Hd]; [|now apply (P4 d)].
        assert (Q : forall z, In z d -> nth z label 0 = c).
        { intros z Hz. assert (Hz' : In z (nodes_of label c)) by (apply (Permutation_in _ C1); apply in_concat; eauto). apply nodes_of_In in Hz'. apply Hz'. }
        now rewrite (Q x Hx), (Q y Hy). }
  destruct (G large comps HF) as (r & Er & P1 & P2 & P3 & P4).
  { intros c Hc. apply filter_In in Hc. apply components_In. apply Hc. }
  { exact Hrows. }
  rewrite Er.
  exists (concat (map fst r) ++ map (fun x => [x]) singles). split; [|split; [|split]].
  - f_equal. f_equal. f_equal. rewrite P3, total_app. replace (total (toarray A) (map (fun x => [x]) singles)) with (sumL (fun x => sum_over (toarray A) [x] [x]) singles) by (unfold total; now rewrite sumL_map).
    generalize (sumL (fun x : nat => sum_over (toarray A) [x] [x]) singles) (sumL (fun cx : nat * (autocov * list nat) => offset (fst cx) (fst (snd cx))) (combine large comps)). intros; ring.
  - rewrite concat_app. assert (E : concat (map (fun x : nat => [x]) singles) = singles).
    { induction singles as [|x l IH]; [reflexivity|]. cbn. now rewrite IH. }
    rewrite E. exact (Permutation_app_tail singles P1).
  - apply Forall_app. split; [exact P2|]. apply Forall_map. apply Forall_forall. discriminate.
  - intros d x y Hd Hx Hy. apply in_app_iff in Hd. destruct Hd as [Hd|Hd]; [now apply (P4 d)|].
    apply in_map_iff in Hd. destruct Hd as (z & <- & _). destruct Hx as [<-|[]], Hy as [<-|[]]. reflexivity.
Qed.

Lemma large_small : Permutation (concat (map (nodes_of label) large) ++ flat_map (nodes_of label) small) (seq 0 n).
Proof.
  rewrite flat_map_concat_map, <- concat_app, <- map_app.
  apply (Permutation_trans (l' := concat (map (nodes_of label) (components label)))); [|apply components_cover].
  assert (Q : Permutation (large ++ small) (components label)).
  { unfold large, small. generalize (components label). intros l. induction l as [|x l IH]; [constructor|]. cbn [filter]. destruct (is_single label x); cbn [negb].
    - apply Permutation_sym, Permutation_cons_app, Permutation_sym. exact IH.
    - cbn [app]. now constructor. }
  clear - Q. induction Q as [|x l l' Q IH|x y l|l l' l'' Q1 IH1 Q2 IH2]; cbn [map concat].
  - constructor.
  - now apply Permutation_app_head.
  - rewrite !app_assoc. apply Permutation_app_tail, Permutation_app_comm.
  - now apply (Permutation_trans IH1).
Qed.
Lemma run_separate_spec comps seed : (forall c, In c large -> rows_of c) ->
  Forall2 (fun c x => ac_aggregate A (idx_list label c) = Some (fst x) /\ snd x = nodes_of label c) large comps ->
  exists cl, run_separate setord rng n_meta n_sub comps (flat_map (nodes_of label) small) seed = Some (cl, total (toarray A) cl + constant comps (flat_map (nodes_of label) small), seed)%num /\
    Permutation (concat cl) (seq 0 n) /\ no_empty cl /\
    forall d x y, In d cl -> In x d -> In y d -> nth x label 0 = nth y label 0.
Proof.
  intros Hrows HF. destruct (run_separate_some comps (flat_map (nodes_of label) small) seed Hrows HF) as (cl & E & H1 & H2 & H3).
  exists cl. split; [exact E|]. split; [exact (Permutation_trans H1 large_small)|]. auto.
Qed.

(** ** The whole network and the largest component *)
Lemma block_total S q : valid q -> compute_stability S q = total S (cluster_list q).
Proof.
  intros Hv. unfold compute_stability, clustered_autocov, total. rewrite sumL_map. apply sumL_ext. intros c _. destruct c; reflexivity.
Qed.
Lemma run_whole_spec seed : usable n PT p true A -> 0 < n -> exists cl, run_whole setord rng n_meta n_sub A seed = Some (cl, total (toarray A) cl, seed) /\
  Permutation (concat cl) (seq 0 n) /\ no_empty cl.
Proof using Hso Hrng.
  clear HW HP HL HLink. clear label. intros HU Hn. pose proof (proj1 HU) as HA. unfold run_whole, search, sparse_init. rewrite Nat.eqb_refl, (ac_copy_id n PT p true A HA). cbn [s_A].
  assert (Esz : a_size A = n) by apply (built_inv _ _ _ _ _ HA). rewrite Esz. unfold sparse_search. cbn [s_A].
  assert (G : forall q, valid q -> num_nodes q = n -> sp_stability A q = total (toarray A) (cluster_list q)).
  { intros q Hv Hq. rewrite (stability_dense n A q Hv Hq). now apply block_total. }
  destruct (is_all_zeros A) eqn:Hz.
  - unfold sp_find_louvain. rewrite Hz. change (num_nodes (part_default n)) with n. assert (Hv := full_partition_valid n Hn).
    cbn [s_A]. rewrite (G _ Hv eq_refl). rewrite full_partition_clusters by exact Hn. exists [seq 0 n]. split; [reflexivity|]. split.
    + cbn [concat]. rewrite app_nil_r. apply Permutation_refl.
    + constructor; [|constructor]. destruct n; [lia|discriminate].
  - destruct (sp_find_louvain_spec setord (orders_used rng (worker_options n_meta n_sub) seed) n PT p true A
      (o_thr (worker_options n_meta n_sub)) (o_meta (worker_options n_meta n_sub)) (o_sub (worker_options n_meta n_sub))
      Hso (Hrng seed) Hn HU Hz) as (q & k & E & H1 & H2 & H3 & _).
    rewrite E. exists (cluster_list q). cbn [s_A]. rewrite (G q H1 H3). split; [reflexivity|]. split; [|exact H2]. rewrite <- H3. now apply valid_perm.
Qed.
Lemma members_idx c a : a < S (length (nodes_of label c)) -> members (nodes_outside label c) (nodes_of label c) a = nth a (idx_list label c) [].
Proof. intros H. destruct a as [|a]; [reflexivity|]. rewrite idx_list_nth by lia. reflexivity. Qed.
Lemma run_largest_spec c seed : nodes_of label c <> [] -> rows_of c ->
  exists B, ac_aggregate A (idx_list label c) = Some B /\ exists cl,
    run_whole setord rng n_meta n_sub B seed = Some (cl, total (toarray A) (unfolded (nodes_outside label c) (nodes_of label c) cl), seed) /\
    Permutation (concat cl) (seq 0 (S (length (nodes_of label c)))) /\ no_empty cl /\
    (is_all_zeros B = false -> exists rest, cl = [0] :: rest).
Proof.
  intros Hc Hrow. destruct (comp_meta c Hc Hrow) as (PT' & p' & B & EB & HB & HT). exists B. split; [exact EB|].
  destruct (search_meta _ PT' p' B seed HB) as (o & q & Es & Eo & Hq). unfold run_whole. rewrite Es, Eo.
  set (m := S (length (nodes_of label c))) in *.
  assert (Hv : valid q /\ num_nodes q = m /\ no_empty (cluster_list q)).
  { destruct (is_all_zeros B).
    - subst q. split; [apply full_partition_valid; lia|]. split; [reflexivity|]. rewrite full_partition_clusters by lia.
      constructor; [discriminate|constructor].
    - tauto. }
  destruct Hv as (Hv & Hn & Hne). exists (cluster_list q). split; [|split; [rewrite <- Hn; now apply valid_perm|split; [exact Hne|]]].
  - f_equal. f_equal. f_equal. rewrite (stability_dense m B q Hv Hn), (block_total _ _ Hv). unfold total, unfolded. rewrite sumL_map.
    apply sumL_ext. intros d Hd. rewrite sum_over_flat. unfold sum_over at 1.
    assert (Hin : forall i, In i d -> i < m).
    { intros i Hi. assert (X : In i (concat (cluster_list q))) by (apply in_concat; eauto). apply (Permutation_in _ (valid_perm q Hv)) in X. rewrite Hn in X. now apply seq_In_iff. }
    apply sumL_ext. intros i Hi. apply sumL_ext. intros j Hj. rewrite HT by auto. now rewrite !members_idx by auto.
  - intros Hz. rewrite Hz in Hq. destruct Hq as (_ & _ & _ & Hal). now apply alone_list.
Qed.
Lemma unfolded_cover c cl : Permutation (concat cl) (seq 0 (S (length (nodes_of label c)))) ->
  Permutation (concat (unfolded (nodes_outside label c) (nodes_of label c) cl)) (seq 0 n).
Proof.
  intros H. unfold unfolded. rewrite <- flat_map_concat_map.
  assert (E : flat_map (flat_map (members (nodes_outside label c) (nodes_of label c))) cl = flat_map (members (nodes_outside label c) (nodes_of label c)) (concat cl)).
  { clear. induction cl as [|d cl IH]; [reflexivity|]. cbn [flat_map concat]. now rewrite IH, flat_map_app. }
  rewrite E. apply (Permutation_trans (Permutation_flat_map _ H)).
  assert (Hp := idx_list_partitions label c). apply partitions_perm in Hp. rewrite HL in Hp. refine (Permutation_trans _ Hp).
  rewrite flat_map_concat_map. rewrite (map_ext_in _ (fun a => nth a (idx_list label c) [])).
  - rewrite <- idx_list_length, map_nth_seq. apply Permutation_refl.
  - intros a Ha. apply members_idx. now apply seq_In_iff.
Qed.
End Comp.

(** ** All the runs *)
Lemma runs_spec (f : nat -> option (list (list nat) * num * nat)) (P : list (list nat) -> num -> Prop) seeds :
  (forall s, exists cl r, f s = Some (cl, r, s) /\ P cl r) -> seeds <> [] ->
  exists clusters stabs, match all_some (map f seeds) with Some l => unzip3 l | None => None end = Some (clusters, stabs, seeds) /\ 
    Forall2 P clusters stabs /\ length clusters = length seeds.
Proof.
  intros H Hs.
  assert (G : exists l, all_some (map f seeds) = Some l /\ map snd l = seeds /\ Forall (fun r => P (fst (fst r)) (snd (fst r))) l).
  { clear Hs. induction seeds as [|s seeds IH]; [exists []; split; [reflexivity|split; [reflexivity|constructor]]|].
    destruct IH as (l & E & E' & HF). destruct (H s) as (cl & r & Ef & HP). exists ((cl, r, s) :: l). cbn [map all_some]. rewrite Ef, E.
    split; [reflexivity|]. split; [cbn [map snd]; now rewrite E'|]. constructor; assumption. }
  destruct G as (l & -> & E' & HF). destruct l as [|r l]; [cbn [map] in E'; congruence|]. unfold unzip3. rewrite E'.
  eexists _, _. split; [reflexivity|]. split; [|rewrite <- E'; now rewrite !map_length]. clear E' Hs. induction HF; constructor; assumption.
Qed.

(** ** The pool *)
Section Pool.
Context (setord : list nat -> list nat) (rng : nat -> nat -> nat -> nat -> list nat) (n_meta n_sub : nat).
Hypothesis Hso : is_iteration_order setord.
Hypothesis Hrng : forall s, shuffles (rng s).
Context (n : nat) (PT : csr) (A A' : autocov).
Let u := (1 / qn n)%num.
Let vec := PVec (repeat u n) (repeat u n).
Hypothesis Hn : 0 < n.
Hypothesis HU : usable n PT (PScal u u) true A.
Hypothesis HA' : ac_init (a_PT A) vec true = Some A'.

Lemma nth_repeat_lt {X} (x d : X) k i : i < k -> nth i (repeat x k) d = x.
Proof. intros H. rewrite (nth_indep _ d x) by now rewrite repeat_length. apply nth_repeat. Qed.
Lemma pool_arrays : a_PT A' = a_PT A /\ a_PTcsc A' = a_PTcsc A /\ a_p A' = vec /\ a_sym A' = a_sym A /\ built n PT vec true A'.
Proof.
  pose proof (proj1 HU) as HB. pose proof (proj1 HB) as HM. destruct HB as (_ & Hs & Hi).
  unfold ac_init in Hi. injection Hi as EA. unfold ac_init in HA'. rewrite <- EA in *. cbn [a_PT a_PTcsc a_p a_sym] in *.
  destruct (sort_indices_spec n PT HM) as [H1 _].
  unfold vec in HA'. rewrite repeat_length, (csr_size_ok n _ H1), Nat.eqb_refl in HA'. cbn [andb] in HA'. injection HA' as <-. cbn [a_PT a_PTcsc a_p a_sym].
  rewrite (sort_indices_idem n PT HM). split; [reflexivity|]. split; [reflexivity|]. split; [reflexivity|]. split; [reflexivity|].
  split; [exact HM|]. split; [exact Hs|]. unfold ac_init, vec. rewrite repeat_length, (csr_size_ok n _ HM), Nat.eqb_refl. reflexivity.
Qed.
Lemma pool_usable : usable n PT vec true A'.
Proof.
  destruct HU as (_ & Hr & _ & Hf). split; [apply pool_arrays|]. split; [exact Hr|]. split; [|exact Hf].
  assert (E : sumL (fun x => x) (repeat u n) = 1%num).
  { assert (G : forall k, sumL (fun x => x) (repeat u k) = (qn k * u)%num).
    { induction k as [|k IH]; [cbn [repeat]; rewrite sumL_nil, qn_0; ring|]. cbn [repeat]. rewrite sumL_cons, IH, qn_S. ring. }
    rewrite G. unfold u. field. apply nonzero_of_pos. rewrite <- qn_0. now apply qn_lt. }
  split; exact E.
Qed.
Lemma pool_same i j : i < n -> j < n -> toarray A i j = toarray A' i j.
Proof.
  intros Hi Hj. destruct pool_arrays as (E1 & _ & E2 & _). unfold toarray. rewrite E1, E2.
  destruct (built_inv _ _ _ _ _ (proj1 HU)) as (_ & -> & _). unfold vec. cbn [p0_at]. now rewrite !nth_repeat_lt by assumption.
Qed.
Lemma pool_zeros : is_all_zeros A' = is_all_zeros A.
Proof.
  destruct pool_arrays as (E1 & _ & E2 & _). destruct (built_inv _ _ _ _ _ (proj1 HU)) as (_ & Ep & _ & Es & HM & _).
  unfold is_all_zeros, a_size in *. rewrite E1, E2, Ep, Es. apply forallb_ext_in. intros i Hi. apply seq_In_iff in Hi. apply forallb_ext_in. intros e He.
  assert (Hj := row_entries_col n (a_PT A) i e HM Hi He). unfold vec. cbn [p0_at]. now rewrite !nth_repeat_lt by assumption.
Qed.
Lemma pool_moves orders thr nmax q : (forall k, order_in_range n (orders k)) -> valid q -> num_nodes q = n ->
  sp_move_nodes setord A' orders thr nmax q = sp_move_nodes setord A orders thr nmax q.
Proof.
  intros Ho Hv Hq. rewrite (move_nodes_dense n PT _ true A (usable_level _ _ _ _ _ HU)) by assumption.
  rewrite (move_nodes_dense n PT _ true A' (usable_level _ _ _ _ _ pool_usable)) by assumption.
  destruct pool_arrays as (E1 & E2 & _). unfold louvain_move_nodes. symmetry. apply (sweeps_ext setord Hso); try assumption.
  - rewrite Hq. apply (neighs_range n PT _ true A (usable_level _ _ _ _ _ HU)).
  - intros k. rewrite Hq. apply Ho.
  - rewrite Hq. intros i j Hi Hj. now apply pool_same.
  - intros x _. unfold sp_neighs. now rewrite E1, E2.
Qed.
Lemma pool_aggregate idx : ac_aggregate A' idx = ac_aggregate A idx.
Proof.
  destruct pool_arrays as (E1 & _ & E2 & E3 & _). destruct (built_inv _ _ _ _ _ (proj1 HU)) as (_ & Ep & _ & Es & _).
  unfold ac_aggregate, a_size in *. rewrite E1, E2, E3, Ep, Es. reflexivity.
Qed.
Lemma pool_loop orders thr nmax nsub : shuffles orders -> forall fuel q mA mA' mp delta nm stop, num_nodes q = n ->
  (mA = mA' \/ (mA = A /\ mA' = A' /\ valid mp /\ num_nodes mp = n)) ->
  sp_meta_loop fuel setord orders A' thr nmax nsub q mA' mp delta nm stop = sp_meta_loop fuel setord orders A thr nmax nsub q mA mp delta nm stop.
Proof.
  intros Hsh. induction fuel as [|fuel IH]; intros q mA mA' mp delta nm stop Hq Hm; cbn [sp_meta_loop];
    destruct (negb (qleb delta thr || stop || (nmax <? nm))); try reflexivity.
  assert (Em : sp_move_nodes setord mA' (fun k => orders (S nm) k (num_nodes mp)) thr nsub mp = sp_move_nodes setord mA (fun k => orders (S nm) k (num_nodes mp)) thr nsub mp).
  { destruct Hm as [->|(-> & -> & Hv & Hmp)]; [reflexivity|]. apply pool_moves; [|exact Hv|exact Hmp].
    intros k x Hx. apply (Permutation_in _ (Hsh (S nm) k (num_nodes mp))) in Hx. rewrite Hmp in Hx. now apply seq_In_iff. }
  rewrite Em. destruct (sp_move_nodes setord mA _ thr nsub mp) as [mp' delta' k| |] eqn:E; try reflexivity.
  destruct (updated_partition q mp') as [q'|] eqn:Eu; [|reflexivity].
  assert (Hq' : num_nodes q' = n).
  { unfold updated_partition in Eu. destruct (fold_left _ _ _) as [d|]; [|discriminate]. unfold part_of_dict in Eu. destruct (dict_max d); [|discriminate].
    injection Eu as <-. rewrite <- Hq. reflexivity. }
  destruct (all_singletons q' || (nmax <? S nm) || qleb delta' thr).
  - apply IH; [exact Hq'|]. destruct Hm as [->|(-> & -> & Hv & Hmp)]; [now left|right]. split; [reflexivity|]. split; [reflexivity|].
    rewrite (move_nodes_dense n PT _ true A (usable_level _ _ _ _ _ HU)) in E; try assumption.
    2:{ intros k0 x Hx. apply (Permutation_in _ (Hsh (S nm) k0 (num_nodes mp))) in Hx. rewrite Hmp in Hx. now apply seq_In_iff. }
    destruct (move_phase_spec setord (toarray A) (sp_neighs A) (fun k0 => orders (S nm) k0 (num_nodes mp)) thr nsub mp Hso Hv) as (p'' & d'' & n'' & E'' & Hv'' & Hn'' & _).
    + rewrite Hmp. apply (neighs_range n PT _ true A (usable_level _ _ _ _ _ HU)).
    + intros k0 x Hx. apply (Permutation_in _ (Hsh (S nm) k0 (num_nodes mp))) in Hx. now apply seq_In_iff.
    + rewrite E'' in E. injection E as <- <- <-. split; [exact Hv''|congruence].
  - unfold sp_aggregate. rewrite pool_aggregate. destruct (Nat.eqb_spec (get_num_clusters q' false) (num_nodes q')) as [El|_].
    + rewrite (ac_copy_id n PT _ true A (proj1 HU)), (ac_copy_id n PT _ true A' (proj1 pool_usable)). apply IH; [exact Hq'|right].
      split; [reflexivity|]. split; [reflexivity|]. unfold get_num_clusters in El. rewrite Hq' in El. rewrite El. split; [apply default_valid|reflexivity].
    + destruct (ac_aggregate A (cluster_list q')) as [B|]; [|reflexivity]. destruct (ac_copy B) as [C|]; [|reflexivity]. apply IH; [exact Hq'|now left].
Qed.
Lemma pool_run seed : run_whole setord rng n_meta n_sub A' seed = run_whole setord rng n_meta n_sub A seed.
Proof.
  assert (EA : a_size A = n) by apply (built_inv _ _ _ _ _ (proj1 HU)). assert (EA' : a_size A' = n) by apply (built_inv _ _ _ _ _ (proj1 pool_usable)).
  unfold run_whole, search, sparse_init. change (csr_size (a_PT A)) with (a_size A). change (csr_size (a_PT A')) with (a_size A').
  rewrite !Nat.eqb_refl, (ac_copy_id n PT _ true A (proj1 HU)), (ac_copy_id n PT _ true A' (proj1 pool_usable)). cbn [s_A]. rewrite EA, EA'.
  unfold sparse_search. cbn [s_A].
  set (opt := worker_options n_meta n_sub).
  assert (E : sp_find_louvain setord (orders_used rng opt seed) A' (o_thr opt) (o_meta opt) (o_sub opt) (part_default n)
            = sp_find_louvain setord (orders_used rng opt seed) A (o_thr opt) (o_meta opt) (o_sub opt) (part_default n)).
  { unfold sp_find_louvain. rewrite pool_zeros. destruct (is_all_zeros A); [reflexivity|].
    rewrite (ac_copy_id n PT _ true A (proj1 HU)), (ac_copy_id n PT _ true A' (proj1 pool_usable)). apply pool_loop; [apply Hrng|reflexivity|right].
    split; [reflexivity|]. split; [reflexivity|]. change (num_nodes (part_default n)) with n. rewrite part_of_list_default. split; [apply default_valid|reflexivity]. }
  rewrite E. destruct (sp_find_louvain setord _ A _ _ _ _) as [q k| |] eqn:Ef; try reflexivity. f_equal. f_equal. f_equal. cbn [s_A].
  assert (Hv : valid q /\ num_nodes q = n).
  { destruct (is_all_zeros A) eqn:Hz.
    - unfold sp_find_louvain in Ef. rewrite Hz in Ef. injection Ef as <- _. split; [now apply full_partition_valid|reflexivity].
    - destruct (sp_find_louvain_spec setord (orders_used rng opt seed) n PT _ true A (o_thr opt) (o_meta opt) (o_sub opt) Hso (Hrng seed) Hn HU Hz)
        as (q' & k' & E' & H1 & _ & H3 & _). rewrite Ef in E'. injection E' as -> _. auto. }
  destruct Hv as [Hv Hq]. rewrite (stability_dense n A' q Hv Hq), (stability_dense n A q Hv Hq), !block_total by exact Hv.
  unfold total. apply sumL_ext. intros c Hc. unfold sum_over.
  assert (Hin : forall i, In i c -> i < n).
  { intros i Hi. assert (X : In i (concat (cluster_list q))) by (apply in_concat; eauto). apply (Permutation_in _ (valid_perm q Hv)) in X. rewrite Hq in X. now apply seq_In_iff. }
  apply sumL_ext. intros i Hi. apply sumL_ext. intros j Hj. symmetry. apply pool_same; auto.
Qed.
End Pool.
Lemma agg_shared A idx B m PT p : ac_aggregate A idx = Some B -> a_sym A = true -> built m PT p true B ->
  shared (fst (vectors_of B)) (snd (vectors_of B)) B = Some B.
Proof.
  intros E Hs HB. assert (HC := ac_copy_id m PT p true B HB). unfold ac_copy in HC. destruct (built_inv _ _ _ _ _ HB) as (_ & _ & ES & _). rewrite ES in HC.
  unfold ac_aggregate in E. unfold shared, vectors_of. destruct (a_p B) as [x y|x y] eqn:Ep; [|exact HC].
  exfalso. destruct (match a_p A with PScal _ _ => _ | PVec p1 p2 => (p1, p2) end) as [o1 o2]. unfold ac_init in E.
  destruct (_ && _); [|discriminate]. injection E as <-. discriminate.
Qed.

Lemma Forall2_weaken {X Y} (P Q : X -> Y -> Prop) l l' : (forall a b, P a b -> Q a b) -> Forall2 P l l' -> Forall2 Q l l'.
Proof. intros H HF. induction HF; constructor; auto. Qed.

(** ** The runs on separate components *)
Section Separate.
Context (setord : list nat -> list nat) (rng : nat -> nat -> nat -> nat -> list nat) (n_meta n_sub : nat).
Hypothesis Hso : is_iteration_order setord.
Hypothesis Hrng : forall s, shuffles (rng s).
Context (n : nat) (PT : csr) (p : probs) (A : autocov) (label : list nat).
Hypothesis HW : flows n PT p A.
Hypothesis HP : positive_entries PT.
Hypothesis HL : length label = n.
Hypothesis HLink : forall x y, x < n -> y < n -> (0 < value PT x y)%num -> nth x label 0 = nth y label 0.
Lemma comp_shared_flows c B : nodes_of label c <> [] -> rows_of n PT label c -> ac_aggregate A (idx_list label c) = Some B -> shared (fst (vectors_of B)) (snd (vectors_of B)) B = Some B.
Proof.
  intros Hc Hrow E. destruct (comp_meta n PT _ A label HW HP HL HLink c Hc Hrow) as (PT' & p' & B' & E' & HB & _). rewrite E in E'. injection E' as <-.
  refine (agg_shared A _ B _ PT' p' E _ (proj1 HB)). apply (built_inv _ _ _ _ _ (proj1 HW)).
Qed.
Hypothesis Hrows : forall c, In c (large label) -> rows_of n PT label c.
Lemma separate_shared comps :
  Forall2 (fun c x => ac_aggregate A (idx_list label c) = Some (fst x) /\ snd x = nodes_of label c) (large label) comps -> shared_list comps = Some comps.
Proof.
  intros HF. unfold shared_list. rewrite (all_some_map_in _ (fun x => x)); [now rewrite map_id|]. intros x Hx.
  assert (G : exists c, In c (large label) /\ ac_aggregate A (idx_list label c) = Some (fst x)).
  { clear - HF Hx. induction HF as [|c y l comps [H1 H2] HF IH]; [destruct Hx|]. destruct Hx as [<-|Hx]; [exists c; split; [now left|exact H1]|].
    destruct (IH Hx) as (c' & H & H'). exists c'. split; [now right|exact H']. }
  destruct G as (c & Hc & EB). rewrite (comp_shared_flows c (fst x)); [now destruct x| |now apply Hrows|exact EB].
  apply filter_In in Hc. apply components_In. apply Hc.
Qed.
(** the runs on the components, with any of the nodes alone in theirs *)
Lemma separate_some comps singles seeds :
  Forall2 (fun c x => ac_aggregate A (idx_list label c) = Some (fst x) /\ snd x = nodes_of label c) (large label) comps -> seeds <> [] ->
  exists clusters stabs,
  match all_some (map (run_separate setord rng n_meta n_sub comps singles) seeds) with Some l => unzip3 l | None => None end = Some (clusters, stabs, seeds) /\
  Forall2 (fun cl r => r = (total (toarray A) cl + constant A label comps singles)%num /\ Permutation (concat cl) (concat (map (nodes_of label) (large label)) ++ singles) /\ no_empty cl /\
    forall d x y, In d cl -> In x d -> In y d -> nth x label 0 = nth y label 0) clusters stabs /\ length clusters = length seeds.
Proof.
  intros HF Hs. apply runs_spec; [|exact Hs]. intros seed.
  destruct (run_separate_some setord rng n_meta n_sub Hso Hrng n PT _ A label HW HP HL HLink comps singles seed Hrows HF) as (cl & Er & R).
  exists cl, (total (toarray A) cl + constant A label comps singles)%num. split; [exact Er|]. split; [reflexivity|exact R].
Qed.
End Separate.

(** ** The runs with each option *)
Section All.
Context (setord : list nat -> list nat) (rng : nat -> nat -> nat -> nat -> list nat) (n_meta n_sub : nat).
Hypothesis Hso : is_iteration_order setord.
Hypothesis Hrng : forall s, shuffles (rng s).
Context (n : nat) (PT : csr) (A : autocov) (label : list nat).
Let u := (1 / qn n)%num.
Hypothesis Hn : 0 < n.
Hypothesis HU : usable n PT (PScal u u) true A.
Hypothesis HP : positive_entries PT.
Hypothesis HL : length label = n.
Hypothesis HLink : forall x y, x < n -> y < n -> (0 < value PT x y)%num -> nth x label 0 = nth y label 0.

Lemma whole_vectors : vectors_of A = (repeat u n, repeat u n).
Proof. destruct (built_inv _ _ _ _ _ (proj1 HU)) as (_ & Ep & _ & Es & _). unfold vectors_of. now rewrite Ep, Es. Qed.
Lemma whole_shared : exists A', shared (fst (vectors_of A)) (snd (vectors_of A)) A = Some A' /\ forall seed, run_whole setord rng n_meta n_sub A' seed = run_whole setord rng n_meta n_sub A seed.
Proof.
  rewrite whole_vectors. cbn [fst snd]. unfold shared. destruct (built_inv _ _ _ _ _ (proj1 HU)) as (_ & _ & _ & Es & HM & _).
  destruct (ac_init (a_PT A) (PVec (repeat u n) (repeat u n)) true) as [A'|] eqn:E.
  - exists A'. split; [reflexivity|]. intros seed. apply (pool_run setord rng n_meta n_sub Hso Hrng n PT A A' Hn HU E).
  - exfalso. unfold ac_init in E. rewrite repeat_length, (csr_size_ok n _ HM), Nat.eqb_refl in E. discriminate.
Qed.
Lemma HW : flows n PT (PScal u u) A.
Proof. now apply usable_flows. Qed.
Lemma all_rows c : rows_of n PT label c.
Proof. intros x Hx. apply nodes_of_In in Hx. rewrite HL in Hx. destruct HU as (_ & _ & _ & _ & H). now apply H. Qed.
Lemma comp_shared c B : nodes_of label c <> [] -> ac_aggregate A (idx_list label c) = Some B -> shared (fst (vectors_of B)) (snd (vectors_of B)) B = Some B.
Proof.
  intros Hc. apply (comp_shared_flows n PT _ A label HW HP HL HLink c B Hc (all_rows c)).
Qed.
Lemma all_nodes_runs pool seeds : seeds <> [] -> exists clusters stabs,
  all_runs setord rng n_meta n_sub AllNodes pool label A seeds = Some (clusters, stabs, seeds) /\
  Forall2 (fun cl r => r = total (toarray A) cl /\ Permutation (concat cl) (seq 0 n) /\ no_empty cl) clusters stabs /\ length clusters = length seeds.
Proof.
  intros Hs. unfold all_runs. destruct whole_shared as (A' & EA & HA').
  assert (G : forall B, (forall seed, run_whole setord rng n_meta n_sub B seed = run_whole setord rng n_meta n_sub A seed) -> forall seed, exists cl r,
    run_whole setord rng n_meta n_sub B seed = Some (cl, r, seed) /\ (r = total (toarray A) cl /\ Permutation (concat cl) (seq 0 n) /\ no_empty cl)).
  { intros B HB seed. rewrite HB. destruct (run_whole_spec setord rng n_meta n_sub Hso Hrng n PT _ A seed HU Hn) as (cl & E & H1 & H2).
    exists cl, (total (toarray A) cl). auto. }
  destruct pool; [rewrite EA|]; apply runs_spec; try exact Hs; apply G; [exact HA'|reflexivity].
Qed.
Lemma separate_runs : exists K, forall pool seeds, seeds <> [] -> exists clusters stabs,
  all_runs setord rng n_meta n_sub SeparateComps pool label A seeds = Some (clusters, stabs, seeds) /\
  Forall2 (fun cl r => r = (total (toarray A) cl + K)%num /\ Permutation (concat cl) (seq 0 n) /\ no_empty cl /\
    forall d x y, In d cl -> In x d -> In y d -> nth x label 0 = nth y label 0) clusters stabs /\ length clusters = length seeds.
Proof.
  destruct (load_separate_spec n PT _ A label HW HP HL HLink (fun c _ => all_rows c)) as (comps & E & HF). exists (constant A label comps (flat_map (nodes_of label) (small label))). intros pool seeds Hs.
  unfold all_runs. rewrite E.
  assert (Esh := separate_shared n PT _ A label HW HP HL HLink (fun c _ => all_rows c) comps HF).
  assert (G : (if pool then shared_list comps else Some comps) = Some comps) by now destruct pool. rewrite G.
  destruct (separate_some setord rng n_meta n_sub Hso Hrng n PT _ A label HW HP HL HLink (fun c _ => all_rows c) comps (flat_map (nodes_of label) (small label)) seeds HF Hs) as (clusters & stabs & Er & HR & Hlen).
  exists clusters, stabs. split; [exact Er|]. split; [|exact Hlen]. refine (Forall2_weaken _ _ _ _ _ HR). intros cl r (H1 & H2 & H3). split; [exact H1|].
  split; [exact (Permutation_trans H2 (large_small n PT _ A label HW HL HLink))|exact H3].
Qed.
Lemma largest_runs pool seeds : nodes_of label (largest_comp label) <> [] -> seeds <> [] -> 
  exists B, load_largest label A = Some (nodes_of label (largest_comp label), B) /\ exists clusters stabs,
  all_runs setord rng n_meta n_sub OnlyLargest pool label A seeds = Some (clusters, stabs, seeds) /\
  Forall2 (fun cl r => let un := unfolded (nodes_outside label (largest_comp label)) (nodes_of label (largest_comp label)) cl in
    r = total (toarray A) un /\ Permutation (concat un) (seq 0 n) /\ Permutation (concat cl) (seq 0 (S (length (nodes_of label (largest_comp label))))) /\ no_empty cl /\
    (is_all_zeros B = false -> exists rest, cl = [0] :: rest)) clusters stabs /\ length clusters = length seeds.
Proof.
  intros Hc Hs. set (c := largest_comp label) in *.
  destruct (run_largest_spec setord rng n_meta n_sub Hso Hrng n PT _ A label HW HP HL HLink c 0 Hc (all_rows c)) as (B & EB & _).
  exists B. unfold all_runs, load_largest. fold c. rewrite EB. split; [reflexivity|].
  assert (G : (if pool then shared (fst (vectors_of B)) (snd (vectors_of B)) B else Some B) = Some B) by (destruct pool; [now apply (comp_shared c)|reflexivity]).
  rewrite G. apply runs_spec; [|exact Hs]. intros seed.
  destruct (run_largest_spec setord rng n_meta n_sub Hso Hrng n PT _ A label HW HP HL HLink c seed Hc (all_rows c)) as (B' & EB' & cl & Er & R1 & R2 & R3).
  rewrite EB in EB'. injection EB' as <-. exists cl, (total (toarray A) (unfolded (nodes_outside label c) (nodes_of label c) cl)).
  split; [exact Er|]. cbv zeta. split; [reflexivity|]. split; [now apply unfolded_cover|]. auto.
Qed.
(** the chosen label is that of a largest component *)
Lemma bincount_nth c : count_label label c = length (nodes_of label c).
Proof.
  unfold count_label, nodes_of. rewrite <- (map_nth_seq label 0) at 1. generalize (seq 0 (length label)). intros l.
  induction l as [|x l IH]; [reflexivity|]. cbn [map filter]. rewrite (Nat.eqb_sym c). destruct (nth x label 0 =? c); cbn [length]; now rewrite IH.
Qed.
Lemma list_max_In l : l <> [] -> In (List.list_max l) l.
Proof.
  induction l as [|x l IH]; [congruence|]. intros _. change (List.list_max (x :: l)) with (Nat.max x (List.list_max l)). destruct l as [|y l].
  - left. change (List.list_max []) with 0. lia.
  - specialize (IH ltac:(discriminate)). destruct (Nat.max_spec x (List.list_max (y :: l))) as [[_ ->]|[_ ->]]; [now right|now left].
Qed.
Lemma largest_spec c : length (nodes_of label c) <= length (nodes_of label (largest_comp label)).
Proof.
  unfold largest_comp, first_max. set (b := bincount label).
  assert (Hb : forall k, nth k b 0 = if k <? length b then length (nodes_of label k) else 0).
  { intros k. destruct (Nat.ltb_spec k (length b)) as [H|H]; [|now apply nth_overflow]. unfold b, bincount in *. rewrite map_length, seq_length in H.
    rewrite nth_map_seq_default by exact H. apply bincount_nth. }
  assert (Hbig : length b <= c -> nodes_of label c = []).
  { intros H. destruct (nodes_of label c) as [|x l] eqn:E; [reflexivity|]. exfalso. assert (X : In x (nodes_of label c)) by (rewrite E; now left).
    apply nodes_of_In in X. destruct X as [X1 X2]. assert (Y : nth x label 0 <= List.list_max label).
    { assert (Z := proj1 (List.list_max_le label (List.list_max label)) (le_n _)). rewrite Forall_forall in Z. apply Z. now apply nth_In. }
    unfold b, bincount in H. rewrite map_length, seq_length in H. lia. }
  assert (Hc : length (nodes_of label c) <= List.list_max b).
  { destruct (Nat.le_gt_cases (length b) c) as [H|H]; [rewrite (Hbig H); cbn; lia|].
    assert (Z := proj1 (List.list_max_le b (List.list_max b)) (le_n _)). rewrite Forall_forall in Z. apply Z.
    replace (length (nodes_of label c)) with (nth c b 0); [now apply nth_In|]. rewrite Hb. apply Nat.ltb_lt in H. now rewrite H. }
  destruct (find (fun c0 => nth c0 b 0 =? List.list_max b) (seq 0 (length b))) as [k|] eqn:E.
  - apply find_some in E. destruct E as [E1 E2]. apply seq_In_iff in E1. apply Nat.eqb_eq in E2. rewrite Hb in E2. apply Nat.ltb_lt in E1. rewrite E1 in E2. now rewrite E2.
  - exfalso. assert (Hne : b <> []) by (unfold b, bincount; discriminate). assert (Hin := list_max_In b Hne). apply (In_nth _ _ 0) in Hin. destruct Hin as (k & Hk & Ek).
    assert (X := find_none _ _ E k). cbv beta in X. rewrite Ek, Nat.eqb_refl in X. assert (Y : true = false) by (apply X; now apply seq_In_iff). discriminate.
Qed.
Lemma largest_nonempty : nodes_of label (largest_comp label) <> [].
Proof.
  assert (H := largest_spec (nth 0 label 0)). intros N. rewrite N in H. assert (X : In 0 (nodes_of label (nth 0 label 0))) by (apply nodes_of_In; split; [now rewrite HL|reflexivity]).
  destruct (nodes_of label (nth 0 label 0)); [destruct X|cbn in H; lia].
Qed.
(** the pool changes nothing *)
Lemma pool_runs o seeds : all_runs setord rng n_meta n_sub o true label A seeds = all_runs setord rng n_meta n_sub o false label A seeds.
Proof.
  destruct o; unfold all_runs.
  - destruct whole_shared as (A' & EA & HA'). rewrite EA. replace (map (run_whole setord rng n_meta n_sub A') seeds) with (map (run_whole setord rng n_meta n_sub A) seeds); [reflexivity|].
    apply map_ext. intros s. now rewrite HA'.
  - unfold load_largest. destruct (ac_aggregate A (idx_list label (largest_comp label))) as [B|] eqn:E; [|reflexivity].
    now rewrite (comp_shared (largest_comp label) B largest_nonempty E).
  - destruct (load_separate label A) as [[comps singles]|] eqn:E; [|reflexivity].
    destruct (load_separate_spec n PT _ A label HW HP HL HLink (fun c _ => all_rows c)) as (comps' & E' & HF). rewrite E in E'. injection E' as <- _.
    assert (Esh := separate_shared n PT _ A label HW HP HL HLink (fun c _ => all_rows c) comps HF).
    now rewrite Esh.
Qed.
End All.
