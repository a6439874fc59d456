(** Property C211: the progress of a search on a SparseClustering. *)
From Verif Require Import Base PartitionModel PartitionSpec PartitionProofs LouvainModel LouvainSpec LouvainProofs
  SparseModel SparseSpec SparseProofs SparseOpsProofs SparseConvProofs AutocovModel AutocovSpec AutocovProofs
  AutocovAggProofs AutocovCtorProofs AutocovProps SparseLouvainModel SparseLouvainSpec SparseLouvainProofs SparseLouvainProps
  ProgressModel ProgressSpec ProgressProofs SparseProgressModel.

(** ** The loop *)
Lemma sp_meta_loop_saving_fst setord orders A0 thr nmeta nsub : forall fuel p mA mp delta nm stop rec,
  fst (sp_meta_loop_saving fuel setord orders A0 thr nmeta nsub p mA mp delta nm stop rec)
  = sp_meta_loop fuel setord orders A0 thr nmeta nsub p mA mp delta nm stop.
Proof.
  induction fuel as [|fuel IH]; intros p mA mp delta nm stop rec; cbn [sp_meta_loop sp_meta_loop_saving];
    destruct (negb (qleb delta thr || stop || (nmeta <? nm))); try reflexivity. cbv zeta.
  destruct (sp_move_nodes _ _ _ _ _ _) as [mp' d' k| |]; try reflexivity.
  destruct (updated_partition p mp') as [p'|]; [|reflexivity].
  destruct (all_singletons p' || _ || _); [apply IH|].
  destruct (sp_aggregate A0 p'); [apply IH|reflexivity].
Qed.
Lemma sp_meta_loop_saving_spec setord orders n PT p0 sym A thr nmeta nsub :
  is_iteration_order setord -> shuffles orders -> 0 < n -> usable n PT p0 sym A ->
  forall fuel p mA mp delta nm stop rec,
  valid p -> no_empty (cluster_list p) -> num_nodes p = n ->
  (stop = false ->
     mp = part_default (length (cluster_list p)) /\
     (exists PT' p', usable (length (cluster_list p)) PT' p' sym mA) /\
     forall a b, a < length (cluster_list p) -> b < length (cluster_list p) ->
       toarray mA a b = aggregate (toarray A) p a b) ->
  nmeta + 1 < fuel + nm -> nm <= nmeta + 1 ->
  exists p' n' ext, sp_meta_loop_saving fuel setord orders A thr nmeta nsub p mA mp delta nm stop rec = (LDone p' n', rec ++ ext)
     /\ nm + length ext = n' /\ chain (toarray A) thr n p ext /\ last (map fst ext) p = p'
     /\ (delta <= thr \/ stop = true -> ext = [])%num.
Proof.
  intros Hso Hsh Hpos HU. induction fuel as [|fuel IH]; intros p mA mp delta nm stop rec Hv Hne Hn Hmeta Hf Hnm; [lia|].
  cbn [sp_meta_loop_saving]. destruct (negb (qleb delta thr || stop || (nmeta <? nm))) eqn:E.
  2:{ exists p, nm, []. rewrite app_nil_r. split; [reflexivity|]. split; [simpl; lia|]. simpl. auto. }
  apply negb_true_iff in E. apply orb_false_iff in E. destruct E as [E E3].
  apply orb_false_iff in E. destruct E as [E1 E2]. apply Nat.ltb_ge in E3.
  destruct (Hmeta E2) as [Hmp [(PTm & pm & HUm) HmS]]. subst mp.
  set (k := length (cluster_list p)) in *.
  assert (Hvk : valid (part_default k)) by apply default_valid.
  assert (Hord : forall q, order_in_range k (orders (S nm) q (num_nodes (part_default k)))).
  { intros q. now apply shuffles_in_range. }
  rewrite (move_nodes_dense k PTm pm sym mA (usable_level _ _ _ _ _ HUm)) by (try assumption; reflexivity).
  destruct (move_phase_spec setord (toarray mA) (sp_neighs mA)
              (fun q => orders (S nm) q (num_nodes (part_default k))) thr nsub (part_default k))
    as (mp' & d & n' & Hmv & Hvm & Hnm' & Hnem & Hd & Hst & _).
  - exact Hso.
  - exact Hvk.
  - apply (neighs_range k PTm pm sym mA (usable_level _ _ _ _ _ HUm)).
  - exact Hord.
  - rewrite Hmv.
    assert (Hnk : num_nodes mp' = k) by (rewrite Hnm'; reflexivity).
    assert (Hpp : 0 < num_nodes p) by lia.
    destruct (updated_partition_spec p mp' Hv Hne Hvm Hnem Hnk Hpp)
      as (p1 & Hu & Hv1 & Hne1 & Hn1 & _).
    rewrite Hu.
    assert (Hs1 : compute_stability (toarray A) p1 = (compute_stability (toarray A) p + d)%num).
    { rewrite (updated_stability (toarray A) p mp' p1) by assumption.
      rewrite (stability_ext (aggregate (toarray A) p) (toarray mA) mp') by
        (try exact Hvm; intros i j Hi Hj; symmetry; apply HmS; lia).
      rewrite Hst. f_equal. rewrite <- (aggregate_default_stability (toarray A) p).
      apply stability_ext; [exact Hvk|]. intros i j Hi Hj. apply HmS; assumption. }
    rewrite !stability_spec in Hs1 by assumption.
    assert (Hn1' : num_nodes p1 = n) by congruence.
    assert (Hsp : sp_stability A p1 = stability (toarray A) p1) by (rewrite <- stability_spec by exact Hv1; now apply (stability_dense n)).
    assert (Hge : (stability (toarray A) p <= stability (toarray A) p1)%num).
    { rewrite Hs1. revert Hd. generalize (stability (toarray A) p) d. qlra. }
    assert (Hex : (delta <= thr \/ stop = true)%num -> False).
    { intros [Hc | Hc]; [|congruence]. destruct (qleb_spec delta thr); [discriminate|auto]. }
    destruct (all_singletons p1 || (nmeta <? S nm) || qleb d thr) eqn:Estop.
    + destruct (IH p1 mA mp' d (S nm) true (sp_save_progress A p1 rec)) as (p2 & n2 & ext & H1 & H2 & H3 & H4 & H5);
        try assumption; try lia; try discriminate.
      rewrite H5 in * by auto. simpl in H4. subst p2.
      exists p1, n2, [(p1, stability (toarray A) p1)]. rewrite H1. unfold sp_save_progress. rewrite app_nil_r, Hsp.
      split; [reflexivity|]. split; [simpl in H2 |- *; lia|]. split; [|split; [reflexivity|intros Hc; destruct (Hex Hc)]].
      simpl. split; [auto|]. split; [exact Hge|]. split; [congruence|exact Logic.I].
    + assert (Estop' := Estop). apply orb_false_iff in Estop'. destruct Estop' as [Estop' _]. apply orb_false_iff in Estop'. destruct Estop' as [Es _].
      destruct (sp_aggregate_spec n PT p0 sym A HU p1 Hpos Hv1 Hn1' Hne1 Es) as (PT' & p' & B & EB & HB & HT).
      rewrite EB.
      destruct (IH p1 B (part_default (length (cluster_list p1))) d (S nm) false (sp_save_progress A p1 rec)) as (p2 & n2 & ext & H1 & H2 & H3 & H4 & H5);
        try assumption; try lia.
      * intros _. split; [reflexivity|]. split; [exists PT', p'; exact HB|]. intros a b Ha Hb. now apply HT.
      * exists p2, n2, ((p1, stability (toarray A) p1) :: ext). rewrite H1. unfold sp_save_progress. rewrite Hsp, <- app_assoc.
        split; [reflexivity|]. split; [simpl; lia|]. split; [|split; [|intros Hc; destruct (Hex Hc)]].
        -- cbn [chain]. split; [auto|]. split; [exact Hge|]. split; [|exact H3]. intros _.
           apply orb_false_iff in Estop. destruct Estop as [_ Ed]. destruct (qleb_spec d thr) as [|Hdt]; [discriminate|].
           rewrite Hs1. apply Qcnot_le_lt in Hdt. revert Hdt. generalize (stability (toarray A) p) d thr. qlra.
        -- rewrite <- H4. cbn [map fst]. apply last_shift.
Qed.

(** * C211: a recording search finds the same partition, and what it appends to the record is its history *)
Theorem C211_same_search : forall setord orders A thr n_meta_iter_max n_sub_iter_max p old,
  fst (sp_find_louvain_saving setord orders A thr n_meta_iter_max n_sub_iter_max p old)
  = sp_find_louvain setord orders A thr n_meta_iter_max n_sub_iter_max p.
Proof.
  intros setord orders A thr nmeta nsub p old. unfold sp_find_louvain_saving, sp_find_louvain. cbv zeta. destruct (is_all_zeros A); [reflexivity|].
  destruct (ac_copy A); [apply sp_meta_loop_saving_fst|reflexivity].
Qed.
(** the expected property, for all usable matrices *)
Definition C211_statement : Prop := forall setord orders n PT p0 sym A thr n_meta_iter_max n_sub_iter_max old,
  is_iteration_order setord -> shuffles orders -> 0 < n -> usable n PT p0 sym A ->
  exists p' n_meta rec,
    sp_find_louvain_saving setord orders A thr n_meta_iter_max n_sub_iter_max (part_default n) old = (LDone p' n_meta, old ++ rec) /\
    history (toarray A) thr n (part_default n) p' n_meta rec.
(** it fails when the matrix passes for zero: the single cluster that is returned is not recorded *)
Theorem C211_progress_refuted : ~ C211_statement.
Proof.
  intros H. destruct (C31_tolerance_refuted) as (A & EA & HZ & _). destruct (tiny_usable A EA) as (PT & p & HU & _ & _).
  destruct (H keep_order in_order 2 PT p false A 0%num 10 10 []) as (q & k & rec & E & Hh).
  - intros l. apply Permutation_refl.
  - intros level j n. apply Permutation_refl.
  - lia.
  - exact HU.
  - unfold sp_find_louvain_saving in E. cbv zeta in E. rewrite HZ in E. apply (f_equal fst) in E. cbn [fst] in E. injection E as <- <-.
    assert (E1 := h_first _ _ _ _ _ _ _ Hh). assert (E2 := h_last _ _ _ _ _ _ _ Hh). rewrite E1 in E2.
    assert (E3 : part_default 2 = full_partition 2) by (change (num_nodes (part_default 2)) with 2 in E2; congruence). discriminate E3.
Qed.
(** otherwise it holds; what was recorded before is kept *)
Theorem C211_progress_partial : forall setord orders n PT p0 sym A thr n_meta_iter_max n_sub_iter_max old,
  is_iteration_order setord -> shuffles orders -> 0 < n -> usable n PT p0 sym A -> is_all_zeros A = false ->
  exists p' n_meta rec,
    sp_find_louvain_saving setord orders A thr n_meta_iter_max n_sub_iter_max (part_default n) old = (LDone p' n_meta, old ++ rec) /\
    history (toarray A) thr n (part_default n) p' n_meta rec.
Proof.
  intros setord orders n PT p0 sym A thr nmeta nsub old Hso Hsh Hn HU Hz. unfold sp_find_louvain_saving. cbv zeta. rewrite Hz, (ac_copy_id n PT p0 sym A (proj1 HU)).
  change (num_nodes (part_default n)) with n. rewrite part_of_list_default.
  destruct (sp_meta_loop_saving_spec setord orders n PT p0 sym A thr nmeta nsub Hso Hsh Hn HU
     (Datatypes.S (Datatypes.S nmeta)) (part_default n) A (part_default n) 1%num 0 false (sp_save_progress A (part_default n) old))
    as (p' & n' & ext & H1 & H2 & H3 & H4 & _).
  - apply default_valid.
  - apply default_no_empty.
  - reflexivity.
  - intros _. rewrite default_length. split; [reflexivity|]. split; [exists PT, p0; exact HU|].
    intros a b Ha Hb. symmetry. now apply default_aggregate_entry.
  - lia.
  - lia.
  - exists p', n', ((part_default n, stability (toarray A) (part_default n)) :: ext). rewrite H1. unfold sp_save_progress.
    rewrite (stability_dense n A (part_default n) (default_valid n) eq_refl), stability_spec, <- app_assoc by apply default_valid.
    split; [reflexivity|]. simpl in H2. subst n' p'. split.
    + simpl. lia.
    + intros q s [E | E]; [|exact (chain_in (toarray A) thr n ext _ H3 q s E)]. injection E as <- <-.
      split; [apply default_valid|]. split; reflexivity.
    + reflexivity.
    + exact (chain_last (toarray A) thr n ext _ H3).
    + intros k q s q' s' E1 E2. exact (proj1 (chain_steps (toarray A) thr n ext _ H3 k q s q' s' E1 E2)).
    + intros k q s q' s' E1 E2. exact (proj2 (chain_steps (toarray A) thr n ext _ H3 k q s q' s' E1 E2)).
Qed.
(** when the matrix passes for zero, only the starting partition is recorded *)
Theorem C211_zeros : forall setord orders n PT p0 sym A thr n_meta_iter_max n_sub_iter_max old,
  0 < n -> usable n PT p0 sym A -> is_all_zeros A = true ->
  exists p', sp_find_louvain_saving setord orders A thr n_meta_iter_max n_sub_iter_max (part_default n) old
      = (LDone p' 0, old ++ [(part_default n, sumN n (fun i => toarray A i i))]) /\ cluster_list p' = [seq 0 n].
Proof.
  intros setord orders n PT p0 sym A thr nmeta nsub old Hn HU Hz. unfold sp_find_louvain_saving. cbv zeta. rewrite Hz. exists (full_partition n).
  split; [|now apply full_partition_clusters]. unfold sp_save_progress. rewrite (stability_dense n A (part_default n) (default_valid n) eq_refl).
  assert (E : compute_stability (toarray A) (part_default n) = sumN n (fun i => toarray A i i)).
  { rewrite stability_eq, default_clusters, sumL_map. apply sumL_ext. intros i _. unfold block. rewrite !sumL_cons, !sumL_nil. ring. }
  now rewrite E.
Qed.
(* the matrix of C31, which passes for zero *)
Example C211_zeros_applies : exists A PT p, from_T tinyT (Some tinyp) None = Some A /\ usable 2 PT p false A /\ is_all_zeros A = true.
Proof.
  destruct (C31_tolerance_refuted) as (A & EA & HZ & _). destruct (tiny_usable A EA) as (PT & p & HU & _ & _). exists A, PT, p. now split.
Qed.
(** the search of C65: the record of two levels *)
Example C211_applies : (exists PT p, usable 4 PT p false fourA) /\ is_all_zeros fourA = false /\
  match sp_find_louvain_saving keep_order in_order fourA 0%num 10 10 (part_default 4) [] with
  | (LDone q k, rec) => q = part_of_list 4 [[0; 1]; [2; 3]] /\ k = 2 /\ map (fun x => cluster_list (fst x)) rec = [[[0]; [1]; [2]; [3]]; [[1; 0]; [3; 2]]; [[0; 1]; [2; 3]]]
  | _ => False end.
Proof. destruct C65_applies as (H1 & H2 & _). split; [exact H1|]. split; [exact H2|]. vm_compute. repeat split; reflexivity. Qed.

Print Assumptions C211_same_search.
Print Assumptions C211_progress_refuted.
Print Assumptions C211_progress_partial.
Print Assumptions C211_zeros.
