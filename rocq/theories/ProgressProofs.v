(** Proofs about the progress of a search and the normalisation of triangular matrices. *)
From Verif Require Import Base PartitionModel PartitionSpec PartitionProofs LouvainModel LouvainSpec LouvainProofs
  ProgressModel ProgressSpec.

(** recording does not change the search *)
Lemma meta_loop_saving_fst setord orders T0 S0 thr nmeta nsub : forall fuel p mT mS mp delta nm stop rec,
  fst (meta_loop_saving fuel setord orders T0 S0 thr nmeta nsub p mT mS mp delta nm stop rec)
  = meta_loop fuel setord orders T0 S0 thr nmeta nsub p mT mS mp delta nm stop.
Proof.
  induction fuel as [|fuel IH]; intros p mT mS mp delta nm stop rec; cbn [meta_loop meta_loop_saving];
    destruct (negb (qleb delta thr || stop || (nmeta <? nm))); try reflexivity.
  destruct (louvain_move_nodes _ _ _ _ _ _ _); try reflexivity.
  destruct (updated_partition p p0); [|reflexivity].
  destruct (all_singletons p1 || _ || _); [apply IH|].
  cbv zeta. destruct (rows_nonzero _ _); [apply IH|reflexivity].
Qed.
Lemma find_louvain_saving_fst setord orders T S thr nmeta nsub p rec :
  fst (find_louvain_saving setord orders T S thr nmeta nsub p rec) = find_louvain setord orders T S thr nmeta nsub p.
Proof.
  unfold find_louvain_saving, find_louvain. cbv zeta. destruct (Nat.eqb _ 0); [reflexivity|].
  destruct (S_is_zero _ _); [reflexivity|]. apply meta_loop_saving_fst.
Qed.

Fixpoint chain (S0 : mat) (thr : num) (n : nat) (p : partition) (ext : progress) : Prop :=
  match ext with
  | [] => True
  | (q, s) :: r => (valid q /\ num_nodes q = n /\ s = stability S0 q) /\ (stability S0 p <= s)%num
      /\ (r <> [] -> (stability S0 p + thr < s)%num) /\ chain S0 thr n q r
  end.

Lemma last_shift {A} (l : list A) : forall x d, last (x :: l) d = last l x.
Proof. induction l as [|a l IH]; intros x d; [reflexivity|]. change (last (a :: l) d = last (a :: l) x). now rewrite !IH. Qed.

Lemma meta_loop_saving_spec setord orders n T0 S0 thr nmeta nsub :
  is_iteration_order setord -> shuffles orders -> has_out_flow n T0 -> 0 < n ->
  forall fuel p mT mS mp delta nm stop rec,
  valid p -> no_empty (cluster_list p) -> num_nodes p = n ->
  (stop = false ->
     mp = part_default (length (cluster_list p)) /\
     forall a b, a < length (cluster_list p) -> b < length (cluster_list p) ->
       mS a b = aggregate S0 p a b) ->
  nmeta + 1 < fuel + nm -> nm <= nmeta + 1 ->
  exists p' n' ext, meta_loop_saving fuel setord orders T0 S0 thr nmeta nsub p mT mS mp delta nm stop rec = (LDone p' n', rec ++ ext)
     /\ nm + length ext = n' /\ chain S0 thr n p ext /\ last (map fst ext) p = p'
     /\ (delta <= thr \/ stop = true -> ext = [])%num.
Proof.
  intros Hso Hsh [HT1 HT2] Hpos. induction fuel as [|fuel IH]; intros p mT mS mp delta nm stop rec Hv Hne Hn Hmeta Hf Hnm; [lia|].
  cbn [meta_loop_saving]. destruct (negb (qleb delta thr || stop || (nmeta <? nm))) eqn:E.
  2:{ exists p, nm, []. rewrite app_nil_r. split; [reflexivity|]. split; [simpl; lia|]. simpl. auto. }
  apply negb_true_iff in E. apply orb_false_iff in E. destruct E as [E E3].
  apply orb_false_iff in E. destruct E as [E1 E2]. apply Nat.ltb_ge in E3.
  destruct (Hmeta E2) as [Hmp HmS]. subst mp.
  set (k := length (cluster_list p)) in *.
  assert (Hvk : valid (part_default k)) by apply default_valid.
  destruct (move_phase_spec setord mS (neighs_of (num_nodes (part_default k)) mT)
              (fun q => orders (S nm) q (num_nodes (part_default k))) thr nsub (part_default k))
    as (mp' & d & n' & Hmv & Hvm & Hnm' & Hnem & Hd & Hst & _).
  - exact Hso.
  - exact Hvk.
  - apply neighs_of_range.
  - intros q. now apply shuffles_in_range.
  - rewrite Hmv.
    assert (Hnk : num_nodes mp' = k) by (rewrite Hnm'; reflexivity).
    assert (Hpos' : 0 < num_nodes p) by lia.
    destruct (updated_partition_spec p mp' Hv Hne Hvm Hnem Hnk Hpos')
      as (p1 & Hu & Hv1 & Hne1 & Hn1 & _).
    rewrite Hu.
    assert (Hs1 : compute_stability S0 p1 = (compute_stability S0 p + d)%num).
    { rewrite (updated_stability S0 p mp' p1) by assumption.
      rewrite (stability_ext (aggregate S0 p) mS mp') by
        (try exact Hvm; intros i j Hi Hj; symmetry; apply HmS; lia).
      rewrite Hst. f_equal. rewrite <- (aggregate_default_stability S0 p).
      apply stability_ext; [exact Hvk|]. intros i j Hi Hj. apply HmS; assumption. }
    rewrite !stability_spec in Hs1 by assumption.
    assert (Hn1' : num_nodes p1 = n) by congruence.
    assert (Hge : (stability S0 p <= stability S0 p1)%num).
    { rewrite Hs1. revert Hd. generalize (stability S0 p) d. qlra. }
    assert (Hex : (delta <= thr \/ stop = true)%num -> False).
    { intros [Hc | Hc]; [|congruence]. destruct (qleb_spec delta thr); [discriminate|auto]. }
    destruct (all_singletons p1 || (nmeta <? S nm) || qleb d thr) eqn:Estop.
    + destruct (IH p1 mT mS mp' d (S nm) true (save_progress S0 p1 rec)) as (p2 & n2 & ext & H1 & H2 & H3 & H4 & H5);
        try assumption; try lia; try discriminate.
      rewrite H5 in * by auto. simpl in H4. subst p2.
      exists p1, n2, [(p1, stability S0 p1)]. rewrite H1. unfold save_progress.
      rewrite app_nil_r, stability_spec by assumption.
      split; [reflexivity|]. split; [simpl in H2 |- *; lia|]. split; [|split; [reflexivity|intros Hc; destruct (Hex Hc)]].
      simpl. split; [auto|]. split; [exact Hge|]. split; [congruence|exact Logic.I].
    + cbv zeta. rewrite (rows_nonzero_agg n T0 p1) by assumption.
      destruct (IH p1 (row_normalised (length (cluster_list p1)) (aggregate T0 p1)) (aggregate S0 p1)
           (part_default (length (cluster_list p1))) d (S nm) false (save_progress S0 p1 rec)) as (p2 & n2 & ext & H1 & H2 & H3 & H4 & H5);
        try assumption; try lia.
      * intros _. split; [reflexivity|auto].
      * exists p2, n2, ((p1, stability S0 p1) :: ext). rewrite H1. unfold save_progress.
        rewrite stability_spec, <- app_assoc by assumption.
        split; [reflexivity|]. split; [simpl; lia|]. split; [|split; [|intros Hc; destruct (Hex Hc)]].
        -- cbn [chain]. split; [auto|]. split; [exact Hge|]. split; [|exact H3]. intros _.
           apply orb_false_iff in Estop. destruct Estop as [_ Ed]. destruct (qleb_spec d thr) as [|Hdt]; [discriminate|].
           rewrite Hs1. apply Qcnot_le_lt in Hdt. revert Hdt. generalize (stability S0 p) d thr. qlra.
        -- rewrite <- H4. cbn [map fst]. apply last_shift.
Qed.

(** from a chain to the history of the specification *)
Lemma chain_in S0 thr n : forall ext p, chain S0 thr n p ext -> forall q s, In (q, s) ext ->
  valid q /\ num_nodes q = n /\ s = stability S0 q.
Proof.
  induction ext as [|[a b] ext IH]; intros p Hc q s; [intros []|]. destruct Hc as (H1 & _ & _ & H4).
  intros [E | E]; [injection E as -> ->; exact H1|]. exact (IH a H4 q s E).
Qed.
Lemma chain_steps S0 thr n : forall ext p, chain S0 thr n p ext -> forall k q s q' s',
  nth_error ((p, stability S0 p) :: ext) k = Some (q, s) -> nth_error ((p, stability S0 p) :: ext) (k + 1) = Some (q', s') ->
  (s <= s')%num /\ (k + 1 < length ext -> (s + thr < s')%num).
Proof.
  induction ext as [|[a b] ext IH]; intros p Hc k q s q' s' H1 H2.
  { rewrite Nat.add_1_r in H2. simpl in H2. destruct k; discriminate. }
  destruct Hc as (Ha & Hle & Hlt & Hc). destruct k as [|k].
  - cbn in H1, H2. injection H1 as <- <-. injection H2 as <- <-. split; [exact Hle|].
    intros Hk. apply Hlt. intros ->. simpl in Hk. lia.
  - destruct Ha as (_ & _ & ->). cbn [nth_error Nat.add] in H1, H2.
    destruct (IH a Hc k q s q' s' H1 H2) as [G1 G2]. split; [exact G1|]. intros Hk. apply G2. simpl in Hk. lia.
Qed.
Lemma chain_last S0 thr n : forall ext p, chain S0 thr n p ext ->
  nth_error ((p, stability S0 p) :: ext) (length ext) = Some (last (map fst ext) p, stability S0 (last (map fst ext) p)).
Proof.
  induction ext as [|[a b] ext IH]; intros p Hc; [reflexivity|]. destruct Hc as ((_ & _ & ->) & _ & _ & Hc).
  cbn [map fst]. rewrite last_shift. exact (IH a Hc).
Qed.

Lemma find_louvain_saving_spec setord orders T S thr nmeta nsub n old :
  is_iteration_order setord -> shuffles orders -> 0 < n -> S_is_zero n S = false -> has_out_flow n T ->
  exists p' n_meta rec,
    find_louvain_saving setord orders T S thr nmeta nsub (part_default n) old = (LDone p' n_meta, old ++ rec) /\
    history S thr n (part_default n) p' n_meta rec.
Proof.
  intros Hso Hsh Hn Hz HT. unfold find_louvain_saving. cbv zeta. change (num_nodes (part_default n)) with n.
  destruct (Nat.eqb_spec n 0) as [->|_]; [lia|]. rewrite Hz, part_of_list_default.
  destruct (meta_loop_saving_spec setord orders n T S thr nmeta nsub Hso Hsh HT Hn
     (Datatypes.S (Datatypes.S nmeta)) (part_default n) T S (part_default n) 1%num 0 false (save_progress S (part_default n) old))
    as (p' & n' & ext & H1 & H2 & H3 & H4 & _).
  - apply default_valid.
  - apply default_no_empty.
  - reflexivity.
  - intros _. rewrite default_length. split; [reflexivity|].
    intros a b Ha Hb. symmetry. now apply default_aggregate_entry.
  - lia.
  - lia.
  - exists p', n', ((part_default n, stability S (part_default n)) :: ext). rewrite H1. unfold save_progress.
    rewrite stability_spec, <- app_assoc by apply default_valid. split; [reflexivity|]. simpl in H2. subst n' p'. split.
    + simpl. lia.
    + intros q s [E | E]; [|exact (chain_in S thr n ext _ H3 q s E)]. injection E as <- <-.
      split; [apply default_valid|]. split; reflexivity.
    + reflexivity.
    + exact (chain_last S thr n ext _ H3).
    + intros k q s q' s' E1 E2. exact (proj1 (chain_steps S thr n ext _ H3 k q s q' s' E1 E2)).
    + intros k q s q' s' E1 E2. exact (proj2 (chain_steps S thr n ext _ H3 k q s q' s' E1 E2)).
Qed.

(** ** triangular matrices *)
Section Triu.
  Variables (n : nat) (r : nat -> num).

  Lemma triu_pass_before k X i j : i < k -> triu_pass n r k X i j = X i j.
  Proof using. intros H. unfold triu_pass. destruct (qeqb (r k) 0%num); [reflexivity|]. destruct (Nat.leb_spec k i); [lia|reflexivity]. Qed.
  Lemma triu_pass_multiple k X i : exists c, forall j, triu_pass n r k X i j = (c * X i j)%num.
  Proof using.
    unfold triu_pass. destruct (qeqb (r k) 0%num); [exists 1%num; intros; ring|].
    destruct ((k <=? i) && (i <? n)); [|exists 1%num; intros; ring]. cbv zeta.
    destruct (qeqb (sumN n (X i)) 0%num); [exists 1%num; intros; ring|].
    eexists. intros j. unfold Qcdiv at 1. rewrite Qcmult_comm. reflexivity.
  Qed.
  Lemma triu_passes_before : forall m k X i j, i < k -> triu_passes n r k m X i j = X i j.
  Proof using.
    induction m as [|m IH]; intros k X i j H; [reflexivity|]. cbn [triu_passes].
    rewrite IH by lia. now apply triu_pass_before.
  Qed.
  Lemma triu_passes_multiple : forall m k X i, exists c, forall j, triu_passes n r k m X i j = (c * X i j)%num.
  Proof using.
    induction m as [|m IH]; intros k X i; [exists 1%num; intros; cbn; ring|]. cbn [triu_passes].
    destruct (IH (S k) (triu_pass n r k X) i) as [c Hc]. destruct (triu_pass_multiple k X i) as [c' Hc'].
    exists (c * c')%num. intros j. rewrite Hc, Hc'. ring.
  Qed.
  Lemma triu_passes_split m1 m2 : forall k X, triu_passes n r k (m1 + m2) X = triu_passes n r (k + m1) m2 (triu_passes n r k m1 X).
  Proof using.
    induction m1 as [|m1 IH]; intros k X; [now rewrite Nat.add_0_r|]. cbn [triu_passes Nat.add]. rewrite IH. f_equal. lia.
  Qed.

  Lemma sumN_linear : forall m f c, sumN m (fun j => (c * f j)%num) = (c * sumN m f)%num.
  Proof using. clear. induction m as [|m IH]; intros f c; [cbn; ring|]. rewrite !sumN_S, IH. ring. Qed.
  Lemma sumN_plus : forall m f g, sumN m (fun j => (f j + g j)%num) = (sumN m f + sumN m g)%num.
  Proof using. clear. induction m as [|m IH]; intros f g; [cbn; ring|]. rewrite !sumN_S, IH. ring. Qed.
  Lemma symmetrised_sum X k : k < n -> sumN n (symmetrised X k) = (sumN n (X k) + sumN n (fun l => X l k) - X k k)%num.
  Proof using.
    intros Hk. rewrite <- sumN_plus. unfold Qcminus. rewrite <- (sumN_delta n k (fun i => - X i i)%num Hk), <- sumN_plus.
    apply sumN_ext. intros j _. unfold symmetrised. rewrite (Nat.eqb_sym k j). destruct (Nat.eqb_spec j k) as [->|]; ring.
  Qed.
  (** the sum of column k of an upper triangular matrix stops at the diagonal *)
  Lemma column_sum X k : upper_triangular n X -> k < n -> sumN n (fun l => X l k) = (sumN k (fun l => X l k) + X k k)%num.
  Proof using.
    intros HX Hk. assert (H : forall m, S k <= m <= n -> sumN m (fun l => X l k) = (sumN k (fun l => X l k) + X k k)%num).
    { induction m as [|m IH]; intros Hm; [lia|]. rewrite sumN_S. destruct (Nat.eq_dec m k) as [->|Hne]; [reflexivity|].
      rewrite IH by lia. rewrite (HX m k) by lia. ring. }
    apply H. lia.
  Qed.
  Lemma triu_passes_upper m k X : upper_triangular n X -> upper_triangular n (triu_passes n r k m X).
  Proof using.
    intros HX i j Hi Hj. destruct (triu_passes_multiple m k X i) as [c Hc]. rewrite Hc, HX by assumption. ring.
  Qed.
  Lemma division_target (s t : num) : (s <> 0 -> s / (s / t) = t)%num.
  Proof using.
    intros Hs. destruct (qeqb_spec t 0%num) as [->|Ht].
    - unfold Qcdiv. change (/ 0)%num with 0%num. replace (s * 0)%num with 0%num by ring. change (/ 0)%num with 0%num. ring.
    - field. split; assumption.
  Qed.

  Lemma normalize_triu_spec X k : upper_triangular n X -> k < n -> r k <> 0%num -> sumN n (X k) <> 0%num ->
    sumN n (symmetrised (normalize_triu n r X) k) = r k \/ forall j, normalize_triu n r X k j = 0%num.
  Proof using.
    intros HX Hk Hr Hs. unfold normalize_triu.
    assert (Es : triu_passes n r 0 n X = triu_passes n r 0 (k + S (n - k - 1)) X) by (f_equal; lia).
    rewrite Es, triu_passes_split. clear Es. cbn [triu_passes Nat.add]. set (Y := triu_passes n r 0 k X).
    set (W := triu_pass n r k Y). set (F := triu_passes n r (S k) (n - k - 1) W).
    assert (HY : upper_triangular n Y) by (apply triu_passes_upper; exact HX).
    assert (HF : upper_triangular n F).
    { apply triu_passes_upper. intros i j Hi Hj. unfold W. destruct (triu_pass_multiple k Y i) as [c Hc].
      rewrite Hc, HY by assumption. ring. }
    assert (Hrow : forall i j, i <= k -> F i j = W i j) by (intros i j Hi; apply triu_passes_before; lia).
    assert (Habove : forall i j, i < k -> F i j = Y i j).
    { intros i j Hi. rewrite Hrow by lia. apply triu_pass_before. exact Hi. }
    destruct (triu_passes_multiple k 0 X k) as [c Hc]. fold Y in Hc.
    destruct (qeqb_spec (sumN n (Y k)) 0%num) as [E|E].
    - right. assert (Ec : c = 0%num).
      { rewrite (sumN_ext n (Y k) (fun j => c * X k j)%num), sumN_linear in E by (intros; apply Hc).
        destruct (Qcmult_integral _ _ E); [assumption|contradiction]. }
      intros j. rewrite Hrow by lia. destruct (triu_pass_multiple k Y k) as [c' Hc']. fold W in Hc'.
      rewrite Hc', Hc, Ec. ring.
    - left. rewrite symmetrised_sum, (column_sum F k HF Hk) by exact Hk.
      set (t := (r k + Y k k - sumN n (fun l => Y l k))%num).
      assert (HW : forall j, W k j = (Y k j / (sumN n (Y k) / t))%num).
      { intros j. unfold W, triu_pass. destruct (qeqb_spec (r k) 0%num); [contradiction|].
        rewrite Nat.leb_refl. destruct (Nat.ltb_spec k n); [|lia]. cbn [andb]. cbv zeta.
        destruct (qeqb_spec (sumN n (Y k)) 0%num); [contradiction|]. reflexivity. }
      assert (Hsum : sumN n (F k) = t).
      { rewrite (sumN_ext n (F k) (fun j => / (sumN n (Y k) / t) * Y k j)%num).
        2:{ intros j _. rewrite Hrow by lia. rewrite HW. unfold Qcdiv. ring. }
        rewrite sumN_linear, Qcmult_comm. exact (division_target (sumN n (Y k)) t E). }
      rewrite Hsum, (sumN_ext k (fun l => F l k) (fun l => Y l k)) by (intros i Hi; apply Habove; exact Hi).
      unfold t. rewrite (column_sum Y k HY Hk). ring.
  Qed.
  Lemma normalize_triu_multiple X k : exists c, forall j, normalize_triu n r X k j = (c * X k j)%num.
  Proof using. apply triu_passes_multiple. Qed.

  (** a matrix that is normalised already is left as it is *)
  Lemma triu_passes_fixed : forall m k X Y, (forall i, i < n -> sumN n (symmetrised X i) = r i) ->
    (forall i j, Y i j = X i j) -> forall i j, triu_passes n r k m Y i j = X i j.
  Proof using.
    induction m as [|m IH]; intros k X Y HX HY i j; [apply HY|]. cbn [triu_passes]. apply IH; [exact HX|]. clear i j.
    intros i j. unfold triu_pass. destruct (qeqb (r k) 0%num); [apply HY|].
    destruct (Nat.leb_spec k i); [|apply HY]. destruct (Nat.ltb_spec i n) as [Hi|]; [|apply HY]. cbn [andb]. cbv zeta.
    rewrite HY. rewrite !(sumN_ext n (Y i) (X i)) by (intros; apply HY).
    destruct (qeqb_spec (sumN n (X i)) 0%num) as [|E]; [reflexivity|].
    replace (r i + Y i i - sumN n (fun l => Y l i))%num with (sumN n (X i)).
    - field. split; [exact E|discriminate].
    - rewrite <- (HX i Hi), symmetrised_sum by exact Hi. rewrite HY, (sumN_ext n (fun l => Y l i) (fun l => X l i)) by (intros; apply HY). ring.
  Qed.
  Lemma normalize_triu_fixed X : (forall i, i < n -> sumN n (symmetrised X i) = r i) ->
    forall i j, normalize_triu n r X i j = X i j.
  Proof using. intros H. now apply triu_passes_fixed. Qed.
End Triu.
