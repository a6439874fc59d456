(** Lemmas about SparseClustering: its sweeps are those of Clustering on the represented matrix. *)
From Verif Require Import Base PartitionModel PartitionSpec PartitionProofs LouvainModel LouvainSpec LouvainProofs
  SparseModel SparseSpec SparseProofs SparseOpsProofs SparseConvProofs AutocovModel AutocovSpec AutocovProofs
  AutocovAggProofs AutocovCtorProofs SparseLouvainModel SparseLouvainSpec.

(** ** The copy *)
Lemma sort_entries_id l : StronglySorted le (map fst l) -> sort_entries l = l.
Proof.
  induction l as [|e l IH]; intros H; [reflexivity|]. cbn [sort_entries fold_right]. fold (sort_entries l).
  cbn [map] in H. inversion H; subst. rewrite IH by assumption. destruct l as [|f l]; [reflexivity|]. cbn [insert_entry].
  destruct (Nat.leb_spec (fst e) (fst f)) as [|Hlt]; [reflexivity|].
  rewrite Forall_forall in H3. specialize (H3 (fst f) (or_introl eq_refl)). lia.
Qed.
Lemma sort_indices_idem n M : csr_ok n M -> sort_indices (sort_indices M) = sort_indices M.
Proof.
  intros HM. destruct (sort_indices_spec n M HM) as [H1 H2].
  rewrite (csr_is_rows n (sort_indices M) H1) at 2. unfold sort_indices at 1. unfold csr_rows.
  rewrite (csr_size_ok n _ H1), map_map. f_equal. apply map_ext_in. intros i Hi. apply seq_In_iff in Hi.
  apply sort_entries_id. rewrite H2 by exact Hi. apply sort_entries_sorted.
Qed.
Lemma ac_copy_id n PT p sym A : built n PT p sym A -> ac_copy A = Some A.
Proof.
  intros HA. pose proof (proj1 HA) as HM. destruct HA as (_ & _ & Hi).
  unfold ac_copy. unfold ac_init in Hi.
  destruct (match p with PScal _ _ => true | PVec p1 p2 => (length p1 =? csr_size PT) && (length p2 =? csr_size PT) end)
    eqn:E; [|discriminate]. injection Hi as <-. cbn [a_PT a_PTcsc a_p a_sym]. unfold ac_init.
  destruct (sort_indices_spec n PT HM) as [H1 _].
  rewrite (csr_size_ok n _ H1). rewrite (csr_size_ok n PT HM) in E. rewrite E, (sort_indices_idem n PT HM). reflexivity.
Qed.

(** ** Gains *)
Lemma Sto_sum S k ix : sum_Sto S k ix = (sumL (fun j => S k j) ix + sumL (fun i => S i k) ix + S k k)%num.
Proof.
  unfold sum_Sto. rewrite (fold_sums (fun i => (S k i + S i k)%num)) by (intros; ring).
  rewrite (sumL_add (fun i => S k i) (fun i => S i k)). ring.
Qed.
Lemma Sout_sum S k ix : sum_Sout S k ix = (S k k - (sumL (fun j => S k j) ix + sumL (fun i => S i k) ix))%num.
Proof.
  unfold sum_Sout. rewrite (fold_sums (fun i => (- (S k i) - S i k)%num)) by (intros; ring).
  rewrite (sumL_sub (fun i => (- S k i)%num) (fun i => S i k)), (sumL_opp (fun i => S k i)). ring.
Qed.
(** the levels of the search need the diagonal to be found in every row *)
Definition level_ok (n : nat) (PT : csr) (p : probs) (sym : bool) (A : autocov) : Prop :=
  built n PT p sym A /\ forall k, k < n -> diag_search (a_PT A) k = Some (value (a_PT A) k k).
Lemma usable_row n PT p sym A k : usable n PT p sym A -> k < n -> row_entries PT k <> [].
Proof.
  intros HU Hk E. destruct HU as (_ & _ & _ & _ & Hrow). specialize (Hrow k Hk).
  rewrite (sumN_zero n (value PT k)) in Hrow; [now apply Qclt_not_le in Hrow; apply Hrow, Qcle_refl|].
  intros j _. now apply value_empty_row.
Qed.
Lemma usable_level n PT p sym A : usable n PT p sym A -> level_ok n PT p sym A.
Proof.
  intros HU. split; [apply HU|]. intros k Hk. apply (diag_found n PT p sym A); [apply HU|exact Hk|apply HU|now apply (usable_row n PT p sym A)].
Qed.
Section Level.
Variables (n : nat) (PT : csr) (p : probs) (sym : bool) (A : autocov).
Hypothesis HU : level_ok n PT p sym A.

Lemma cluster_index q c ix : valid q -> num_nodes q = n -> nth_error (cluster_list q) c = Some ix -> index_list n ix.
Proof.
  intros Hv Hn E. destruct (cluster_props n (cluster_list q) c) as [H1 H2]; [rewrite <- Hn; apply Hv|].
  rewrite (nth_error_nth _ _ _ E) in H1, H2. split; assumption.
Qed.
Lemma moveto_dense q k c : valid q -> num_nodes q = n -> k < n ->
  sp_moveto A q k c = delta_moveto (toarray A) q k c.
Proof.
  intros Hv Hn Hk. unfold sp_moveto, delta_moveto. destruct (nth_error (cluster_list q) c) as [ix|] eqn:E; [|reflexivity].
  destruct (memb k ix) eqn:Em; [reflexivity|].
  destruct HU as (HA & Hd). rewrite (moveto_found n PT p sym A HA); try assumption.
  - rewrite Sto_sum. reflexivity.
  - now apply (cluster_index q c).
  - now apply Hd.
Qed.
Lemma moveout_dense q k c : valid q -> num_nodes q = n -> k < n ->
  sp_moveout A q k c = delta_moveout (toarray A) q k c.
Proof.
  intros Hv Hn Hk. unfold sp_moveout, delta_moveout. destruct (nth_error (cluster_list q) c) as [ix|] eqn:E; [|reflexivity].
  destruct (memb k ix) eqn:Em; [|reflexivity].
  destruct HU as (HA & Hd). rewrite (moveout_found n PT p sym A HA); try assumption.
  - rewrite Sout_sum. reflexivity.
  - now apply (cluster_index q c).
  - now apply Hd.
Qed.
Lemma best_move_dense q k ci ro comms : valid q -> num_nodes q = n -> k < n ->
  sp_best_move A q k ci ro comms = best_move (toarray A) q k ci ro comms.
Proof.
  intros Hv Hn Hk. unfold sp_best_move, best_move. generalize (Some (0%num, ci)).
  induction comms as [|c l IH]; intros b; [reflexivity|]. cbn [fold_left]. rewrite IH. f_equal.
  destruct b as [[db cb]|]; [|reflexivity]. now rewrite (moveto_dense q k c Hv Hn Hk).
Qed.
Lemma visit_dense setord q k : valid q -> num_nodes q = n -> k < n ->
  sp_visit setord A q k = visit setord (toarray A) (sp_neighs A) q k.
Proof.
  intros Hv Hn Hk. unfold sp_visit, visit. destruct (dget (n2c q) k) as [ci|]; [|reflexivity].
  rewrite (moveout_dense q k ci Hv Hn Hk). destruct (delta_moveout (toarray A) q k ci) as [ro|]; [|reflexivity].
  destruct (potential_new_clusters setord (sp_neighs A) q k) as [comms|]; [|reflexivity].
  rewrite (best_move_dense q k ci ro comms Hv Hn Hk). reflexivity.
Qed.
Lemma neighs_range : neighs_in_range n (sp_neighs A).
Proof.
  intros x y Hx Hy. destruct HU as (HA & _). destruct (built_inv n PT p sym A HA) as (_ & _ & _ & _ & H1 & H2 & _).
  unfold sp_neighs in Hy. apply nodup_In in Hy. rewrite in_app_iff, !in_map_iff in Hy.
  destruct Hy as [(e & <- & He)|(e & <- & He)]; [now apply (row_entries_col n (a_PT A) x)|now apply (row_entries_col n (a_PTcsc A) x)].
Qed.
Lemma sweep_dense setord order q : is_iteration_order setord -> valid q -> num_nodes q = n -> order_in_range n order ->
  sp_sweep setord A order q = sweep setord (toarray A) (sp_neighs A) order q.
Proof.
  intros Hso Hv Hn Ho. unfold sp_sweep, sweep. generalize 0%num. revert q Hv Hn.
  induction order as [|x l IH]; intros q Hv Hn d; [reflexivity|]. cbn [fold_left].
  assert (Hx : x < n) by (apply Ho; now left).
  rewrite (visit_dense setord q x Hv Hn Hx).
  destruct (visit_spec setord (toarray A) (sp_neighs A) q x Hso Hv) as (q' & g & E & Hq' & Hn' & _).
  - rewrite Hn. apply neighs_range.
  - lia.
  - rewrite E. apply IH; [|exact Hq'|congruence]. intros y Hy. apply Ho. now right.
Qed.
Lemma sweeps_dense setord orders thr nmax : is_iteration_order setord -> (forall k, order_in_range n (orders k)) ->
  forall fuel q dl dt nl, valid q -> num_nodes q = n ->
  sp_sweeps fuel setord A orders thr nmax q dl dt nl = sweeps fuel setord (toarray A) (sp_neighs A) orders thr nmax q dl dt nl.
Proof.
  intros Hso Ho. induction fuel as [|fuel IH]; intros q dl dt nl Hv Hn; cbn [sp_sweeps sweeps]; [reflexivity|].
  destruct (qltb thr dl && (nl <? nmax)); [|reflexivity].
  rewrite (sweep_dense setord (orders nl) q Hso Hv Hn (Ho nl)).
  destruct (sweep_spec setord (toarray A) (sp_neighs A) (orders nl) q Hso Hv) as (q' & g & E & Hq' & Hn' & _).
  - rewrite Hn. apply neighs_range.
  - rewrite Hn. apply Ho.
  - rewrite E. apply IH; [exact Hq'|congruence].
Qed.
Lemma move_nodes_dense setord orders thr nmax q : is_iteration_order setord -> (forall k, order_in_range n (orders k)) ->
  valid q -> num_nodes q = n ->
  sp_move_nodes setord A orders thr nmax q = louvain_move_nodes setord (toarray A) (sp_neighs A) orders thr nmax q.
Proof. intros Hso Ho Hv Hn. now apply sweeps_dense. Qed.
Lemma stability_dense q : valid q -> num_nodes q = n -> sp_stability A q = compute_stability (toarray A) q.
Proof.
  intros Hv Hn. unfold sp_stability, compute_stability, sp_clustered_autocov, clustered_autocov. rewrite !sumL_map.
  apply sumL_ext. intros c Hc. destruct (nonempty c); [|reflexivity].
  destruct Hv as [[Hnd _] _]. rewrite Forall_forall in Hnd. rewrite ac_submat_sum_spec by now apply Hnd. reflexivity.
Qed.

End Level.

(** ** Aggregation *)
Lemma count_singletons q : valid q -> no_empty (cluster_list q) -> length (cluster_list q) = num_nodes q ->
  all_singletons q = true.
Proof.
  intros Hv Hne Hl. pose proof (Permutation_length (valid_perm q Hv)) as HP. rewrite seq_length in HP.
  rewrite <- Hl in HP. clear Hv Hl. unfold all_singletons, no_empty in *.
  assert (Hge : forall l, Forall (fun c : list nat => c <> []) l -> length l <= length (concat l)).
  { induction l as [|c l IH]; intros H; [simpl; lia|]. inversion H; subst. cbn [concat]. rewrite app_length. cbn [length].
    specialize (IH H3). destruct c; [contradiction|]. cbn [length]. lia. }
  induction (cluster_list q) as [|c l IH]; [reflexivity|]. inversion Hne; subst. cbn [concat] in HP. rewrite app_length in HP.
  cbn [length] in HP. specialize (Hge l H2). destruct c as [|x [|y c]]; [contradiction| |cbn [length] in HP; lia].
  cbn [length] in HP. cbn [forallb length Nat.eqb andb]. apply IH; [assumption|lia].
Qed.
Lemma aggregate_built n PT p sym A q : 0 < n -> built n PT p sym A -> normalised_probs n p ->
  (forall i j, i < n -> j < n -> (0 <= value PT i j)%num) ->
  valid q -> num_nodes q = n ->
  exists PT' p' B, ac_aggregate A (cluster_list q) = Some B /\
    built (length (cluster_list q)) PT' p' sym B /\ no_repetition PT' /\ normalised_probs (length (cluster_list q)) p' /\
    (forall a b, a < length (cluster_list q) -> b < length (cluster_list q) -> (0 <= value PT' a b)%num) /\
    (forall a b, a < length (cluster_list q) -> b < length (cluster_list q) ->
      toarray B a b = aggregate (toarray A) q a b /\ value PT' a b = aggregate (value PT) q a b) /\
    (positive_entries PT -> positive_entries PT').
Proof.
  intros Hpos HA Hp H0 Hv Hn.
  assert (Hcl : partitions n (cluster_list q)) by (rewrite <- Hn; apply Hv).
  destruct (ac_aggregate_spec n PT p sym A (cluster_list q) Hpos HA Hp Hcl H0)
    as (PT' & p1' & p2' & B & E & HB & Hp' & Hr' & Hval & _ & _ & HT & Hpe).
  exists PT', (PVec p1' p2'), B. split; [exact E|]. split; [exact HB|]. split; [exact Hr'|]. split; [exact Hp'|]. split; [|split; [|exact Hpe]].
  - intros a b Ha Hb. rewrite Hval by assumption. unfold sum_over.
    destruct (cluster_props n (cluster_list q) a Hcl) as [_ Ra]. destruct (cluster_props n (cluster_list q) b Hcl) as [_ Rb].
    apply sumL_nonneg. intros i Hi. apply sumL_nonneg. intros j Hj. apply H0; auto.
  - intros a b Ha Hb. rewrite HT, Hval by assumption. split; reflexivity.
Qed.
Section Agg.
Variables (n : nat) (PT : csr) (p : probs) (sym : bool) (A : autocov).
Hypothesis HU : usable n PT p sym A.
Lemma aggregate_usable q : 0 < n -> valid q -> num_nodes q = n -> no_empty (cluster_list q) ->
  exists PT' p' B, ac_aggregate A (cluster_list q) = Some B /\
    usable (length (cluster_list q)) PT' p' sym B /\
    forall a b, a < length (cluster_list q) -> b < length (cluster_list q) ->
      toarray B a b = aggregate (toarray A) q a b /\ value PT' a b = aggregate (value PT) q a b /\
      (positive_entries PT -> positive_entries PT').
Proof.
  intros Hpos Hv Hn Hne. destruct HU as (HA & Hr & Hp & H0 & Hrow).
  destruct (aggregate_built n PT p sym A q Hpos HA Hp H0 Hv Hn) as (PT' & p' & B & E & HB & Hr' & Hp' & V0 & HV & Hpe).
  exists PT', p', B. split; [exact E|]. split; [|intros a b Ha Hb; destruct (HV a b Ha Hb) as [H1 H2]; auto].
  split; [exact HB|]. split; [exact Hr'|]. split; [exact Hp'|]. split; [exact V0|].
  intros a Ha. pose proof (rows_nonzero_agg n (value PT) q Hv Hne Hn H0 Hrow) as Hz.
  unfold rows_nonzero in Hz. rewrite forallb_forall in Hz. specialize (Hz a). rewrite seq_In_iff in Hz. specialize (Hz Ha).
  apply negb_true_iff in Hz.
  assert (Ev : sumN (length (cluster_list q)) (value PT' a) = sumN (length (cluster_list q)) (aggregate (value PT) q a)).
  { apply sumN_ext. intros b Hb. now apply HV. }
  rewrite <- Ev in Hz. destruct (qeqb_spec (sumN (length (cluster_list q)) (value PT' a)) 0%num) as [|Hz']; [discriminate|].
  assert (Hge : (0 <= sumN (length (cluster_list q)) (value PT' a))%num) by (apply sumN_nonneg; intros; now apply V0).
  apply qle_lt_or_eq in Hge. destruct Hge as [H|H]; [exact H|]. now symmetry in H.
Qed.
Lemma sp_aggregate_spec q : 0 < n -> valid q -> num_nodes q = n -> no_empty (cluster_list q) ->
  all_singletons q = false ->
  exists PT' p' B, sp_aggregate A q = Some B /\
    usable (length (cluster_list q)) PT' p' sym B /\
    forall a b, a < length (cluster_list q) -> b < length (cluster_list q) ->
      toarray B a b = aggregate (toarray A) q a b /\ value PT' a b = aggregate (value PT) q a b /\
      (positive_entries PT -> positive_entries PT').
Proof.
  intros Hpos Hv Hn Hne Hs. destruct (aggregate_usable q Hpos Hv Hn Hne) as (PT' & p' & B & E & HB & HT).
  exists PT', p', B. split; [|split; assumption]. unfold sp_aggregate. unfold get_num_clusters.
  destruct (Nat.eqb_spec (length (cluster_list q)) (num_nodes q)) as [El|_].
  - exfalso. rewrite (count_singletons q Hv Hne El) in Hs. discriminate.
  - rewrite E. apply (ac_copy_id (length (cluster_list q)) PT' p' sym B). apply HB.
Qed.
End Agg.

(** ** The level loop *)
Lemma sp_meta_loop_spec setord orders n PT p0 sym A thr nmeta nsub :
  is_iteration_order setord -> shuffles orders -> 0 < n -> usable n PT p0 sym A ->
  forall fuel p mA mp delta nm stop,
  valid p -> no_empty (cluster_list p) -> num_nodes p = n ->
  (stop = false ->
     mp = part_default (length (cluster_list p)) /\
     (exists PT' p', usable (length (cluster_list p)) PT' p' sym mA) /\
     forall a b, a < length (cluster_list p) -> b < length (cluster_list p) ->
       toarray mA a b = aggregate (toarray A) p a b) ->
  nmeta + 1 < fuel + nm -> nm <= nmeta + 1 ->
  exists p' n', sp_meta_loop fuel setord orders A thr nmeta nsub p mA mp delta nm stop = LDone p' n'
     /\ valid p' /\ no_empty (cluster_list p') /\ num_nodes p' = n /\
     (compute_stability (toarray A) p <= compute_stability (toarray A) p')%num /\ nm <= n' <= nmeta + 1.
Proof.
  intros Hso Hsh Hpos HU. induction fuel as [|fuel IH]; intros p mA mp delta nm stop Hv Hne Hn Hmeta Hf Hnm; [lia|].
  cbn [sp_meta_loop]. destruct (negb (qleb delta thr || stop || (nmeta <? nm))) eqn:E.
  2:{ exists p, nm. split; [reflexivity|]. repeat (split; [assumption || reflexivity|]).
      split; [apply Qcle_refl|lia]. }
  apply negb_true_iff in E. apply orb_false_iff in E. destruct E as [E E3].
  apply orb_false_iff in E. destruct E as [_ E2]. apply Nat.ltb_ge in E3.
  destruct (Hmeta E2) as [Hmp [(PTm & pm & HUm) HmS]]. subst mp.
  set (k := length (cluster_list p)) in *.
  assert (Hvk : valid (part_default k)) by apply default_valid.
  assert (Hord : forall q, order_in_range k (orders (S nm) q (num_nodes (part_default k)))).
  { intros q. now apply shuffles_in_range. }
  rewrite (move_nodes_dense k PTm pm sym mA (usable_level _ _ _ _ _ HUm)) by (try assumption; reflexivity).
  destruct (move_phase_spec setord (toarray mA) (sp_neighs mA)
              (fun q => orders (S nm) q (num_nodes (part_default k))) thr nsub (part_default k))
    as (mp' & d & n' & Hmv & Hvm & Hnm' & Hnem & Hd & Hst & _).
  - exact Hso.
  - exact Hvk.
  - apply (neighs_range k PTm pm sym mA (usable_level _ _ _ _ _ HUm)).
  - exact Hord.
  - rewrite Hmv.
    assert (Hnk : num_nodes mp' = k) by (rewrite Hnm'; reflexivity).
    assert (Hpp : 0 < num_nodes p) by lia.
    destruct (updated_partition_spec p mp' Hv Hne Hvm Hnem Hnk Hpp)
      as (p1 & Hu & Hv1 & Hne1 & Hn1 & _).
    rewrite Hu.
    assert (Hs1 : compute_stability (toarray A) p1 = (compute_stability (toarray A) p + d)%num).
    { rewrite (updated_stability (toarray A) p mp' p1) by assumption.
      rewrite (stability_ext (aggregate (toarray A) p) (toarray mA) mp') by
        (try exact Hvm; intros i j Hi Hj; symmetry; apply HmS; lia).
      rewrite Hst. f_equal. rewrite <- (aggregate_default_stability (toarray A) p).
      apply stability_ext; [exact Hvk|]. intros i j Hi Hj. apply HmS; assumption. }
    assert (Hge : (compute_stability (toarray A) p <= compute_stability (toarray A) p1)%num).
    { rewrite Hs1. revert Hd. generalize (compute_stability (toarray A) p) d. qlra. }
    assert (Hn1' : num_nodes p1 = n) by congruence.
    destruct (all_singletons p1 || (nmeta <? S nm) || qleb d thr) eqn:Estop.
    + destruct (IH p1 mA mp' d (S nm) true) as (p2 & n2 & H1 & H2 & H3 & H4 & H5 & H6);
        try assumption; try lia; try discriminate.
      exists p2, n2. split; [exact H1|]. split; [exact H2|]. split; [exact H3|]. split; [congruence|].
      split; [eapply Qcle_trans; eauto|lia].
    + apply orb_false_iff in Estop. destruct Estop as [Estop _]. apply orb_false_iff in Estop. destruct Estop as [Es _].
      destruct (sp_aggregate_spec n PT p0 sym A HU p1 Hpos Hv1 Hn1' Hne1 Es) as (PT' & p' & B & EB & HB & HT).
      rewrite EB.
      destruct (IH p1 B (part_default (length (cluster_list p1))) d (S nm) false) as (p2 & n2 & H1 & H2 & H3 & H4 & H5 & H6);
        try assumption; try lia.
      * intros _. split; [reflexivity|]. split; [exists PT', p'; exact HB|]. intros a b Ha Hb. now apply HT.
      * exists p2, n2. split; [exact H1|]. split; [exact H2|]. split; [exact H3|]. split; [congruence|].
        split; [eapply Qcle_trans; eauto|lia].
Qed.
Lemma sp_find_louvain_spec setord orders n PT p0 sym A thr nmeta nsub :
  is_iteration_order setord -> shuffles orders -> 0 < n -> usable n PT p0 sym A -> is_all_zeros A = false ->
  exists p' n', sp_find_louvain setord orders A thr nmeta nsub (part_default n) = LDone p' n' /\
     valid p' /\ no_empty (cluster_list p') /\ num_nodes p' = n /\
     (compute_stability (toarray A) (part_default n) <= compute_stability (toarray A) p')%num /\ n' <= nmeta + 1.
Proof.
  intros Hso Hsh Hpos HU Hz. unfold sp_find_louvain. rewrite Hz, (ac_copy_id n PT p0 sym A (proj1 HU)).
  change (num_nodes (part_default n)) with n. rewrite part_of_list_default.
  destruct (sp_meta_loop_spec setord orders n PT p0 sym A thr nmeta nsub Hso Hsh Hpos HU
     (Datatypes.S (Datatypes.S nmeta)) (part_default n) A (part_default n) 1%num 0 false)
    as (p' & n' & H1 & H2 & H3 & H4 & H5 & H6).
  - apply default_valid.
  - apply default_no_empty.
  - reflexivity.
  - intros _. rewrite default_length. split; [reflexivity|]. split; [exists PT, p0; exact HU|].
    intros a b Ha Hb. symmetry. now apply default_aggregate_entry.
  - lia.
  - lia.
  - exists p', n'. split; [exact H1|]. repeat (split; [assumption|]). lia.
Qed.

(** ** Agreement with Clustering *)
(** the sweeps only look at the matrix in range and at neighbour lists as sets *)
Section Ext.
Variables (n : nat) (setord : list nat -> list nat) (M M' : mat) (ng ng' : nat -> list nat).
Hypothesis Hso : is_iteration_order setord.
Hypothesis Hset : by_set setord.
Hypothesis HM : forall i j, i < n -> j < n -> M i j = M' i j.
Hypothesis Hng : forall x y, x < n -> In y (ng x) <-> In y (ng' x).
Hypothesis Hr : neighs_in_range n ng.

Lemma neighbour_clusters q l : valid q -> num_nodes q = n -> (forall y, In y l -> y < n) ->
  exists s, fold_right (fun x acc => match acc, dget (n2c q) x with
               | Some s, Some c => Some (set_add c s) | _, _ => None end) (Some []) l = Some s /\ NoDup s /\
  forall c, In c s <-> exists y, In y l /\ dget (n2c q) y = Some c.
Proof.
  intros Hv Hn. induction l as [|y l IH]; intros Hl; cbn [fold_right].
  - exists []. split; [reflexivity|]. split; [constructor|]. intros c. split; [intros []|intros (y & [] & _)].
  - destruct IH as (s & -> & Hnd & Hs); [intros; apply Hl; now right|].
    destruct (valid_node_dget q y Hv) as [c Hc]; [rewrite Hn; apply Hl; now left|]. rewrite Hc.
    exists (set_add c s). split; [reflexivity|]. split.
    + unfold set_add. destruct (memb_spec c s); [exact Hnd|now constructor].
    + intros d. rewrite set_add_In, Hs. split.
      * intros [->|(z & Hz & E)]; [exists y; split; [now left|exact Hc]|exists z; split; [now right|exact E]].
      * intros (z & [<-|Hz] & E); [left; congruence|right; exists z; auto].
Qed.
Lemma potential_ext q x : valid q -> num_nodes q = n -> x < n ->
  potential_new_clusters setord ng q x = potential_new_clusters setord ng' q x.
Proof.
  intros Hv Hn Hx. unfold potential_new_clusters. destruct (dget (n2c q) x) as [ci|]; [|reflexivity].
  destruct (neighbour_clusters q (ng x) Hv Hn (fun y => Hr x y Hx)) as (s & -> & N1 & H1).
  destruct (neighbour_clusters q (ng' x) Hv Hn) as (s' & -> & N2 & H2).
  { intros y Hy. apply (Hr x y Hx). now apply Hng. }
  f_equal. apply Hset. apply NoDup_perm_set; [now apply rem_NoDup|now apply rem_NoDup|].
  intros c. rewrite !rem_In, H1, H2. split; intros [(y & Hy & E) Hc]; (split; [exists y; split; [now apply Hng|exact E]|exact Hc]).
Qed.
Lemma sums_ext k ix : k < n -> (forall i, In i ix -> i < n) ->
  sum_Sto M k ix = sum_Sto M' k ix /\ sum_Sout M k ix = sum_Sout M' k ix.
Proof.
  intros Hk Hi. rewrite !Sto_sum, !Sout_sum.
  rewrite (sumL_ext (fun j => M k j) (fun j => M' k j)) by auto.
  rewrite (sumL_ext (fun j => M j k) (fun j => M' j k)) by auto.
  rewrite (HM k k) by assumption. split; reflexivity.
Qed.
Lemma moveto_ext q k c : valid q -> num_nodes q = n -> k < n -> delta_moveto M q k c = delta_moveto M' q k c.
Proof.
  intros Hv Hn Hk. unfold delta_moveto. destruct (nth_error (cluster_list q) c) as [ix|] eqn:E; [|reflexivity].
  destruct (memb k ix); [reflexivity|]. f_equal.
  exact (proj1 (sums_ext k ix Hk (proj2 (cluster_index n q c ix Hv Hn E)))).
Qed.
Lemma moveout_ext q k c : valid q -> num_nodes q = n -> k < n -> delta_moveout M q k c = delta_moveout M' q k c.
Proof.
  intros Hv Hn Hk. unfold delta_moveout. destruct (nth_error (cluster_list q) c) as [ix|] eqn:E; [|reflexivity].
  destruct (memb k ix); [|reflexivity]. f_equal.
  exact (proj2 (sums_ext k ix Hk (proj2 (cluster_index n q c ix Hv Hn E)))).
Qed.
Lemma visit_ext q k : valid q -> num_nodes q = n -> k < n -> visit setord M ng q k = visit setord M' ng' q k.
Proof.
  intros Hv Hn Hk. unfold visit. destruct (dget (n2c q) k) as [ci|]; [|reflexivity].
  rewrite (moveout_ext q k ci Hv Hn Hk). destruct (delta_moveout M' q k ci) as [ro|]; [|reflexivity].
  rewrite (potential_ext q k Hv Hn Hk). destruct (potential_new_clusters setord ng' q k) as [comms|]; [|reflexivity].
  replace (best_move M q k ci ro comms) with (best_move M' q k ci ro comms); [reflexivity|].
  unfold best_move. generalize (Some (0%num, ci)). induction comms as [|c l IH]; intros b; [reflexivity|].
  cbn [fold_left]. rewrite IH. f_equal. destruct b as [[db cb]|]; [|reflexivity]. now rewrite (moveto_ext q k c Hv Hn Hk).
Qed.
Lemma sweep_ext order q : valid q -> num_nodes q = n -> order_in_range n order ->
  sweep setord M ng order q = sweep setord M' ng' order q.
Proof.
  intros Hv Hn Ho. unfold sweep. generalize 0%num. revert q Hv Hn.
  induction order as [|x l IH]; intros q Hv Hn d; [reflexivity|]. cbn [fold_left].
  assert (Hx : x < n) by (apply Ho; now left).
  rewrite (visit_ext q x Hv Hn Hx).
  destruct (visit_spec setord M' ng' q x Hso Hv) as (q' & g & E & Hq' & Hn' & _).
  - rewrite Hn. intros a b Ha Hb. apply (Hr a b Ha). now apply Hng.
  - lia.
  - rewrite E. apply IH; [|exact Hq'|congruence]. intros y Hy. apply Ho. now right.
Qed.
Lemma move_nodes_ext orders thr nmax q : (forall k, order_in_range n (orders k)) -> valid q -> num_nodes q = n ->
  louvain_move_nodes setord M ng orders thr nmax q = louvain_move_nodes setord M' ng' orders thr nmax q.
Proof.
  intros Ho Hv Hn. unfold louvain_move_nodes.
  assert (H : forall fuel q dl dt nl, valid q -> num_nodes q = n ->
    sweeps fuel setord M ng orders thr nmax q dl dt nl = sweeps fuel setord M' ng' orders thr nmax q dl dt nl).
  { induction fuel as [|fuel IH]; intros r dl dt nl Hvr Hnr; cbn [sweeps]; [reflexivity|].
    destruct (qltb thr dl && (nl <? nmax)); [|reflexivity].
    rewrite (sweep_ext (orders nl) r Hvr Hnr (Ho nl)).
    destruct (sweep_spec setord M' ng' (orders nl) r Hso Hvr) as (q' & g & E & Hq' & Hn' & _).
    - rewrite Hnr. intros a b Ha Hb. apply (Hr a b Ha). now apply Hng.
    - rewrite Hnr. apply Ho.
    - rewrite E. apply IH; [exact Hq'|congruence]. }
  now apply H.
Qed.
End Ext.

(** stored neighbours are those with a positive value *)
Lemma stored_positive M i j : no_repetition M -> positive_entries M ->
  In j (map fst (row_entries M i)) <-> (0 < value M i j)%num.
Proof.
  intros Hr Hp. destruct (value_single M i j (Hr i)) as [(v & Hv & ->)|[Hno ->]].
  - split; [intros _; apply (Hp i _ Hv)|intros _]. apply in_map_iff. exists (j, v). auto.
  - split; [|intros H; now apply Qclt_not_le in H; exfalso; apply H, Qcle_refl].
    intros H. apply in_map_iff in H. destruct H as ([c v] & <- & He). now apply Hno in He.
Qed.
Lemma sp_neighs_In n PT p sym A x y : built n PT p sym A -> no_repetition PT -> positive_entries PT ->
  x < n -> y < n -> In y (sp_neighs A x) <-> (0 < value PT x y)%num \/ (0 < value PT y x)%num.
Proof.
  intros HA Hr Hp Hx Hy. pose proof (proj1 HA) as HM. unfold sp_neighs. rewrite nodup_In, in_app_iff.
  assert (H1 : forall a b, a < n -> In b (map fst (row_entries (a_PT A) a)) <-> (0 < value PT a b)%num).
  { intros a b Ha. rewrite <- (stored_positive PT a b Hr Hp), !in_map_iff.
    split; intros (e & E & He); exists e; (split; [exact E|]); apply (sorted_entries n PT p sym A a e HA Ha); exact He. }
  rewrite (H1 x y Hx).
  assert (H2 : In y (map fst (row_entries (a_PTcsc A) x)) <-> (0 < value PT y x)%num).
  { destruct HA as (HM' & Hs & Hi).
    assert (HA : built n PT p sym A) by (split; [exact HM'|split; assumption]).
    unfold ac_init in Hi.
    destruct (match p with PScal _ _ => true | PVec p1 p2 => (length p1 =? csr_size PT) && (length p2 =? csr_size PT) end);
      [|discriminate]. injection Hi as EA.
    assert (EP : a_PT A = sort_indices PT) by (rewrite <- EA; reflexivity).
    assert (EC : a_PTcsc A = if sym then sort_indices PT else tocsc (sort_indices PT)) by (rewrite <- EA; reflexivity).
    rewrite EC. destruct sym.
    - rewrite <- EP, (H1 x y Hx), (Hs eq_refl x y Hx Hy). reflexivity.
    - destruct (sort_indices_spec n PT HM') as [HS _].
      destruct (tocsc_spec n (sort_indices PT) HS) as (_ & R & _). rewrite (R x Hx), <- (H1 y x Hy), EP, !in_map_iff. split.
      + intros (e & <- & He). apply (csc_column_In n _ x e HS) in He. exists (x, snd e). split; [reflexivity|apply He].
      + intros (e & <- & He). exists (y, snd e). split; [reflexivity|]. apply (csc_column_In n _ _ _ HS). cbn [fst snd].
        split; [exact Hy|now destruct e]. }
  rewrite H2. reflexivity.
Qed.
Lemma qdiv_pos a b : (0 < a -> 0 < b -> 0 < a / b)%num.
Proof.
  intros Ha Hb. destruct (qle_lt_or_eq 0%num (a / b)%num) as [H|H]; [apply qdiv_nonneg; [now apply Qclt_le_weak|exact Hb]|exact H|].
  exfalso. assert (E : a = 0%num).
  { transitivity (a / b * b)%num; [field; intros ->; now apply Qclt_not_le in Hb; apply Hb, Qcle_refl|]. rewrite <- H. ring. }
  rewrite E in Ha. apply Qclt_not_le in Ha. apply Ha, Qcle_refl.
Qed.
Lemma sum_positive_iff {X} (f : X -> num) l : (forall x, In x l -> (0 <= f x)%num) ->
  (0 < sumL f l)%num <-> exists x, In x l /\ (0 < f x)%num.
Proof.
  intros H0. split.
  - intros Hp. destruct (existsb (fun x => qltb 0%num (f x)) l) eqn:E.
    + apply existsb_exists in E. destruct E as (x & Hx & E). exists x. split; [exact Hx|].
      destruct (qltb_spec 0%num (f x)); [assumption|discriminate].
    + exfalso. rewrite (sumL_zero f l) in Hp; [now apply Qclt_not_le in Hp; apply Hp, Qcle_refl|].
      intros x Hx. destruct (qltb_spec 0%num (f x)) as [Hf|Hf].
      * exfalso. assert (existsb (fun x => qltb 0%num (f x)) l = true); [|congruence].
        apply existsb_exists. exists x. split; [exact Hx|]. destruct (qltb_spec 0%num (f x)); [reflexivity|contradiction].
      * specialize (H0 x Hx). revert H0 Hf. generalize (f x). qlra.
  - intros (x & Hx & Hf). apply (Qclt_le_trans _ _ _ Hf). now apply sumL_nonneg_term.
Qed.
Lemma aggregate_positive n (F G : mat) q a b : valid q -> num_nodes q = n ->
  (forall i j, i < n -> j < n -> (0 <= F i j)%num) -> (forall i j, i < n -> j < n -> (0 <= G i j)%num) ->
  (forall i j, i < n -> j < n -> (0 < F i j)%num <-> (0 < G i j)%num) ->
  (0 < aggregate F q a b)%num <-> (0 < aggregate G q a b)%num.
Proof.
  intros Hv Hn HF HG HFG. assert (Hcl : partitions n (cluster_list q)) by (rewrite <- Hn; apply Hv).
  destruct (cluster_props n (cluster_list q) a Hcl) as [_ Ra]. destruct (cluster_props n (cluster_list q) b Hcl) as [_ Rb].
  assert (H : forall F : mat, (forall i j, i < n -> j < n -> (0 <= F i j)%num) ->
    (0 < aggregate F q a b)%num <-> exists i j, In i (nth a (cluster_list q) []) /\ In j (nth b (cluster_list q) []) /\ (0 < F i j)%num).
  { intros H HH. unfold aggregate, block. rewrite sum_positive_iff.
    - split.
      + intros (i & Hi & Hs). apply sum_positive_iff in Hs; [|intros; apply HH; auto]. destruct Hs as (j & Hj & Hp).
        exists i, j. auto.
      + intros (i & j & Hi & Hj & Hp). exists i. split; [exact Hi|]. apply sum_positive_iff; [intros; apply HH; auto|].
        exists j. auto.
    - intros i Hi. apply sumL_nonneg. intros j Hj. apply HH; auto. }
  rewrite (H F HF), (H G HG). split; intros (i & j & Hi & Hj & Hp); exists i, j; (split; [exact Hi|split; [exact Hj|]]); apply HFG; auto.
Qed.

Definition as_sparse (n : nat) (T S : mat) (PT : csr) (A : autocov) : Prop :=
  (forall i j, i < n -> j < n -> toarray A i j = S i j) /\
  (forall i j, i < n -> j < n -> (0 < value PT i j)%num <-> (0 < T i j)%num).

Lemma meta_loops_agree setord orders n T S PT p0 sym A thr nmeta nsub :
  is_iteration_order setord -> by_set setord -> shuffles orders -> 0 < n ->
  usable n PT p0 sym A -> positive_entries PT -> has_out_flow n T -> as_sparse n T S PT A ->
  forall fuel p mT mS mA mp delta nm stop,
  valid p -> no_empty (cluster_list p) -> num_nodes p = n ->
  (stop = false ->
     mp = part_default (length (cluster_list p)) /\
     (exists PT' p', usable (length (cluster_list p)) PT' p' sym mA /\ positive_entries PT' /\
        as_sparse (length (cluster_list p)) mT mS PT' mA)) ->
  sp_meta_loop fuel setord orders A thr nmeta nsub p mA mp delta nm stop =
  meta_loop fuel setord orders T S thr nmeta nsub p mT mS mp delta nm stop.
Proof.
  intros Hso Hset Hsh Hpos HU Hpe HT [HS HPT].
  induction fuel as [|fuel IH]; intros p mT mS mA mp delta nm stop Hv Hne Hn Hmeta;
    cbn [sp_meta_loop meta_loop]; (destruct (negb (qleb delta thr || stop || (nmeta <? nm))) eqn:E; [|reflexivity]); [reflexivity|].
  apply negb_true_iff in E. apply orb_false_iff in E. destruct E as [E _].
  apply orb_false_iff in E. destruct E as [_ E2].
  destruct (Hmeta E2) as [Hmp (PTm & pm & HUm & Hpm & HSm & HTm)]. subst mp.
  set (k := length (cluster_list p)) in *.
  assert (Hvk : valid (part_default k)) by apply default_valid.
  assert (Hord : forall q, order_in_range k (orders (Datatypes.S nm) q (num_nodes (part_default k)))).
  { intros q. now apply shuffles_in_range. }
  rewrite (move_nodes_dense k PTm pm sym mA (usable_level _ _ _ _ _ HUm)) by (try assumption; reflexivity).
  change (num_nodes (part_default k)) with k in *.
  rewrite (move_nodes_ext k setord (toarray mA) mS (sp_neighs mA) (neighs_of k mT) Hso Hset HSm).
  2:{ intros x y Hx. unfold neighs_of. rewrite filter_In, seq_In_iff. split.
      - intros Hy. assert (Hyk : y < k) by (apply (neighs_range k PTm pm sym mA (usable_level _ _ _ _ _ HUm) x y Hx Hy)). split; [exact Hyk|].
        apply (sp_neighs_In k PTm pm sym mA x y) in Hy; try assumption; try apply HUm.
        apply orb_true_iff. destruct Hy as [Hy|Hy]; apply HTm in Hy; try assumption; [left|right];
          match goal with |- qltb 0%num ?z = true => destruct (qltb_spec 0%num z); [reflexivity|contradiction] end.
      - intros [Hyk Hy]. apply (sp_neighs_In k PTm pm sym mA x y); try assumption; try apply HUm.
        apply orb_true_iff in Hy. destruct Hy as [Hy|Hy]; [left|right]; apply HTm; try assumption;
          match type of Hy with qltb 0%num ?z = true => destruct (qltb_spec 0%num z); [assumption|discriminate] end. }
  2:{ apply (neighs_range k PTm pm sym mA (usable_level _ _ _ _ _ HUm)). }
  2:{ exact Hord. }
  2:{ exact Hvk. }
  2:{ reflexivity. }
  destruct (move_phase_spec setord mS (neighs_of k mT) (fun q => orders (Datatypes.S nm) q k) thr nsub (part_default k))
    as (mp' & d & n' & Hmv & Hvm & Hnm' & Hnem & Hd & Hst & _).
  - exact Hso.
  - exact Hvk.
  - apply neighs_of_range.
  - exact Hord.
  - rewrite Hmv.
    assert (Hnk : num_nodes mp' = k) by (rewrite Hnm'; reflexivity).
    assert (Hpp : 0 < num_nodes p) by lia.
    destruct (updated_partition_spec p mp' Hv Hne Hvm Hnem Hnk Hpp) as (p1 & Hu & Hv1 & Hne1 & Hn1 & _).
    rewrite Hu. assert (Hn1' : num_nodes p1 = n) by congruence.
    destruct (all_singletons p1 || (nmeta <? Datatypes.S nm) || qleb d thr) eqn:Estop.
    + apply IH; try assumption. discriminate.
    + apply orb_false_iff in Estop. destruct Estop as [Estop _]. apply orb_false_iff in Estop. destruct Estop as [Es _].
      destruct (sp_aggregate_spec n PT p0 sym A HU p1 Hpos Hv1 Hn1' Hne1 Es) as (PT' & p' & B & EB & HB & HTB).
      rewrite EB. cbv zeta.
      rewrite (rows_nonzero_agg n T p1 Hv1 Hne1 Hn1') by apply HT.
      apply IH; try assumption. intros _. split; [reflexivity|]. exists PT', p'. split; [exact HB|].
      destruct HU as (_ & _ & _ & HP0 & _). destruct HT as [HT0 HTrow].
      assert (Hk0 : 0 < length (cluster_list p1)).
      { destruct (cluster_list p1) as [|c l] eqn:Ecl; [|cbn [length]; lia].
        exfalso. destruct Hv1 as [(_ & _ & Hc) _]. rewrite Ecl in Hc. rewrite Hn1' in Hc.
        destruct (proj1 (Hc 0) Hpos) as (i & c & Hi & _). now destruct i. }
      split; [now apply (HTB 0 0)|]. split.
      * intros i j Hi Hj. rewrite (proj1 (HTB i j Hi Hj)). unfold aggregate, block.
        assert (Hcl : partitions n (cluster_list p1)) by (rewrite <- Hn1'; apply Hv1).
        apply sumL_ext. intros x Hx. apply sumL_ext. intros y Hy.
        apply HS; [apply (cluster_props n _ i Hcl), Hx|apply (cluster_props n _ j Hcl), Hy].
      * intros i j Hi Hj. rewrite (proj1 (proj2 (HTB i j Hi Hj))).
        rewrite (aggregate_positive n (value PT) T p1 i j Hv1 Hn1' HP0 HT0 HPT).
        assert (Hrs : (0 < sumN (length (cluster_list p1)) (aggregate T p1 i))%num).
        { pose proof (rows_nonzero_agg n T p1 Hv1 Hne1 Hn1' HT0 HTrow) as Hz.
          unfold rows_nonzero in Hz. rewrite forallb_forall in Hz. specialize (Hz i). rewrite seq_In_iff in Hz. specialize (Hz Hi).
          apply negb_true_iff in Hz.
          destruct (qeqb_spec (sumN (length (cluster_list p1)) (aggregate T p1 i)) 0%num) as [|Hz']; [discriminate|].
          assert (Hge : (0 <= sumN (length (cluster_list p1)) (aggregate T p1 i))%num).
          { rewrite (aggregate_row_sum n T p1 i Hv1 Hn1'). apply sumL_nonneg. intros x Hx. apply Qclt_le_weak, HTrow.
            assert (Hcl : partitions n (cluster_list p1)) by (rewrite <- Hn1'; apply Hv1).
            apply (cluster_props n _ i Hcl), Hx. }
          apply qle_lt_or_eq in Hge. destruct Hge as [H|H]; [exact H|]. now symmetry in H. }
        unfold row_normalised. symmetry. revert Hrs. generalize (sumN (length (cluster_list p1)) (aggregate T p1 i)) (aggregate T p1 i j).
        intros s x Hs. split; intros Hx.
        -- replace x with (x / s * s)%num by (field; intros ->; now apply Qclt_not_le in Hs; apply Hs, Qcle_refl).
           now apply qmult_pos.
        -- now apply qdiv_pos.
Qed.
