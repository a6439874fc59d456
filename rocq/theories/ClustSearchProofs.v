(** The search on a matrix whose node 0, possibly empty, is not connected to the others. *)
From Verif Require Import Base PartitionModel PartitionSpec PartitionProofs LouvainModel LouvainSpec LouvainProofs
  SparseModel SparseSpec SparseProofs SparseOpsProofs SparseConvProofs AutocovModel AutocovSpec AutocovProofs
  AutocovAggProofs AutocovCtorProofs SparseLouvainModel SparseLouvainSpec SparseLouvainProofs MultiProofs.

(** node 0 is the only member of cluster 0 *)
Definition alone (p : partition) : Prop := forall x, in_cluster (cluster_list p) 0 x <-> x = 0.

Lemma alone_list p : valid p -> alone p -> exists rest, cluster_list p = [0] :: rest.
Proof.
  intros [[Hnd _] _] Ha. destruct (proj2 (Ha 0) eq_refl) as (c & Hc & _).
  destruct (cluster_list p) as [|c' rest] eqn:E; [discriminate|]. exists rest. f_equal. injection Hc as ->.
  assert (Hm : forall x, In x c <-> x = 0).
  { intros x. rewrite <- (Ha x). rewrite E. split; [intros H; exists c; split; [reflexivity|exact H]|]. intros (d & Hd & Hx). now injection Hd as <-. }
  inversion Hnd; subst. destruct c as [|a [|b c]].
  - exfalso. now apply (Hm 0).
  - f_equal. apply Hm. now left.
  - exfalso. assert (a = 0) by (apply Hm; now left). assert (b = 0) by (apply Hm; right; now left). subst. inversion H1; subst. apply H3. now left.
Qed.
Lemma alone_others p x : valid p -> alone p -> 0 < x -> x < num_nodes p -> 1 < length (cluster_list p).
Proof.
  intros Hv Ha Hx Hl. destruct (alone_list p Hv Ha) as (rest & E). destruct Hv as [[_ [_ Hc]] _].
  destruct (proj1 (Hc x) Hl) as (i & c & Hi & Hin). rewrite E in Hi |- *. destruct i as [|i].
  - injection Hi as <-. destruct Hin as [<-|[]]. lia.
  - cbn [length]. cbn in Hi. assert (i < length rest) by (apply nth_error_Some; congruence). lia.
Qed.
Lemma default_alone n : 0 < n -> alone (part_default n).
Proof.
  intros Hn x. unfold in_cluster. cbn. destruct n as [|n]; [lia|]. cbn. split.
  - intros (c & E & Hx). injection E as <-. destruct Hx as [<-|[]]. reflexivity.
  - intros ->. exists [0]. split; [reflexivity|now left].
Qed.

Section Alone.
Context (setord : list nat -> list nat) (M : mat).
Hypothesis Hso : is_iteration_order setord.
Lemma visit_alone neighs p node p' g : valid p -> neighs_in_range (num_nodes p) neighs ->
  (forall y, In y (neighs node) -> node = 0 <-> y = 0) -> alone p -> visit setord M neighs p node = Some (p', g) -> alone p'.
Proof.
  intros Hv Hr HN HW. unfold visit. destruct (dget (n2c p) node) as [ci|] eqn:Hci; [|discriminate].
  assert (Hn : node < num_nodes p) by (eapply valid_dget_node; eauto).
  destruct (moveout_some M p node ci Hv Hci) as [ro Hro]. rewrite Hro.
  destruct (potential_spec setord neighs p node ci Hso Hv Hr Hci) as (comms & Hcm & Hcomms). rewrite Hcm.
  destruct (best_move_spec M p node ci ro comms Hv Hci) as (db & cb & Hb & _ & Hcase & _).
  { intros c Hc. destruct (Hcomms c Hc) as [H1 [H2 _]]. auto. }
  rewrite Hb. destruct (Nat.eqb_spec cb ci) as [->|Hne].
  - intros E. now injection E as <- <-.
  - destruct Hcase as [[? _]|[Hin _]]; [contradiction|]. destruct (Hcomms cb Hin) as (_ & Hlt & y & Hy & Hdy).
    destruct (move_node_spec p node cb Hv Hn Hlt) as (p1 & Hm & _ & _ & HI & _). rewrite Hm. intros E. injection E as <- <-.
    assert (Hcy : in_cluster (cluster_list p) cb y) by now apply Hv.
    assert (H0 : node <> 0).
    { intros ->. apply (HN y) in Hy. assert (y = 0) by now apply Hy. subst y. congruence. }
    assert (Hcb : cb <> 0).
    { intros ->. apply HW in Hcy. apply HN in Hy. apply H0. now apply Hy. }
    intros x. rewrite (HI 0 x). rewrite (HW x). split.
    + intros [[_ E]|[_ E]]; [congruence|exact E].
    + intros ->. right. split; [congruence|reflexivity].
Qed.
Lemma sweep_alone neighs order p p' d : valid p -> neighs_in_range (num_nodes p) neighs -> order_in_range (num_nodes p) order ->
  (forall x y, x < num_nodes p -> In y (neighs x) -> x = 0 <-> y = 0) -> alone p -> sweep setord M neighs order p = Some (p', d) -> alone p'.
Proof.
  intros Hv Hr Ho HN HW. unfold sweep. set (n := num_nodes p) in *. assert (Hn : num_nodes p = n) by reflexivity. clearbody n.
  generalize 0%num. revert p Hv Hn HW. induction order as [|x l IH]; intros p Hv Hn HW d0; cbn [fold_left].
  - intros E. now injection E as <- <-.
  - destruct (visit_spec setord M neighs p x Hso Hv) as (q & g & Hvis & Hq & Hnq & _); [now rewrite Hn|rewrite Hn; apply Ho; now left|].
    rewrite Hvis. apply IH; [intros y Hy; apply Ho; now right|exact Hq|congruence|].
    refine (visit_alone neighs p x q g Hv _ _ HW Hvis); [now rewrite Hn|]. intros y Hy. apply HN; [apply Ho; now left|exact Hy].
Qed.
Lemma remove_empty_alone p : valid p -> alone p -> alone (remove_empty_clusters p).
Proof.
  intros Hv Ha. destruct (alone_list p Hv Ha) as (rest & E). intros x. unfold in_cluster. cbn. rewrite E. cbn. split.
  - intros (c & Hc & Hx). injection Hc as <-. destruct Hx as [<-|[]]. reflexivity.
  - intros ->. exists [0]. split; [reflexivity|now left].
Qed.
Lemma sweeps_alone neighs orders thr nmax : forall fuel p dl dt nl p' d n', valid p -> neighs_in_range (num_nodes p) neighs ->
  (forall k, order_in_range (num_nodes p) (orders k)) -> (forall x y, x < num_nodes p -> In y (neighs x) -> x = 0 <-> y = 0) -> alone p ->
  sweeps fuel setord M neighs orders thr nmax p dl dt nl = MDone p' d n' -> alone p'.
Proof.
  induction fuel as [|fuel IH]; intros p dl dt nl p' d n' Hv Hr Ho HN HW; cbn [sweeps]; destruct (qltb thr dl && (nl <? nmax))%bool.
  - discriminate.
  - intros E. injection E as <- <- <-. now apply remove_empty_alone.
  - destruct (sweep_spec setord M neighs (orders nl) p Hso Hv Hr (Ho nl)) as (p1 & d1 & Hs & Hv1 & Hn1 & _). rewrite Hs.
    apply IH; try rewrite Hn1; try assumption. eapply sweep_alone; [exact Hv|exact Hr|exact (Ho nl)|exact HN|exact HW|exact Hs].
  - intros E. injection E as <- <- <-. now apply remove_empty_alone.
Qed.
End Alone.
Lemma updated_alone p mp p' : valid p -> alone p -> valid mp -> alone mp -> valid p' ->
  same_sets (cluster_list p') (expand (cluster_list p) (cluster_list mp)) -> alone p'.
Proof.
  intros Hv Ha Hvm Ham Hv' Hs. destruct (alone_list p Hv Ha) as (r & E). destruct (alone_list mp Hvm Ham) as (rm & Em).
  rewrite E, Em in Hs. cbn in Hs. destruct (cluster_list p') as [|c l] eqn:E'; [inversion Hs|].
  assert (HC : forall x, In x c <-> In x [0]) by now inversion Hs. intros x. unfold in_cluster. rewrite E'. cbn. split.
  - intros (c' & Hc & Hx). injection Hc as <-. apply HC in Hx. destruct Hx as [<-|[]]. reflexivity.
  - intros ->. exists c. split; [reflexivity|]. apply HC. now left.
Qed.

(** ** Matrices with a meta node *)
Definition usable_meta (n : nat) (PT : csr) (p : probs) (sym : bool) (A : autocov) : Prop :=
  built n PT p sym A /\ no_repetition PT /\ normalised_probs n p /\
  (forall i j, i < n -> j < n -> (0 <= value PT i j)%num) /\ positive_entries PT /\
  (forall i, 0 < i -> i < n -> (0 < sumN n (value PT i))%num) /\
  (forall j, 0 < j -> j < n -> value PT 0 j = 0%num /\ value PT j 0 = 0%num) /\ 1 < n.

Lemma nonempty_of_sum n PT k : (0 < sumN n (value PT k))%num -> row_entries PT k <> [].
Proof.
  intros Hrow E. rewrite (sumN_zero n (value PT k)) in Hrow; [now apply Qclt_not_le in Hrow; apply Hrow, Qcle_refl|].
  intros j _. now apply value_empty_row.
Qed.
Lemma meta_level n PT p sym A : usable_meta n PT p sym A -> level_ok n PT p sym A.
Proof.
  intros (HA & Hr & _ & _ & Hpe & Hrow & Hz & Hn). split; [exact HA|]. intros k Hk.
  destruct (row_entries PT k) as [|e l] eqn:Ek.
  2:{ apply (diag_found n PT p sym A HA k Hk Hr). rewrite Ek. discriminate. }
  destruct k as [|k].
  2:{ exfalso. apply (nonempty_of_sum n PT (S k)); [apply Hrow; lia|exact Ek]. }
  destruct (built_inv n PT p sym A HA) as (E & _ & _ & _ & HM & _ & Hv & _).
  assert (E0 : row_entries (a_PT A) 0 = []).
  { rewrite E. rewrite (proj2 (sort_indices_spec n PT (proj1 HA)) 0 Hk), Ek. reflexivity. }
  assert (N1 : row_entries (a_PT A) 1 <> []).
  { apply (nonempty_row n PT p sym A HA); [|exact Hn]. apply (nonempty_of_sum n). apply Hrow; lia. }
  rewrite (value_empty_row _ 0 0 E0).
  pose proof (row_entries_length (a_PT A) 0) as L0. rewrite E0 in L0. cbn [length] in L0.
  pose proof (row_entries_length (a_PT A) 1) as L1. destruct (row_entries (a_PT A) 1) as [|[c v] l] eqn:E1; [contradiction|].
  cbn [length] in L1. destruct HM as (Hl & Hp0 & Hmono & Hlast & Hidx & Hb).
  pose proof (Hmono 0 Hk) as M0. rewrite Hp0 in L0, M0. assert (P1 : nth 1 (c_ptr (a_PT A)) 0 = 0) by lia.
  (** the first stored element is in row 1 *)
  assert (F : nth_error (c_idx (a_PT A)) 0 = Some c).
  { unfold row_entries, row_range in E1. rewrite P1 in E1. destruct (nth 2 (c_ptr (a_PT A)) 0 - 0) as [|m] eqn:Em; [discriminate|].
    cbn [seq map] in E1. injection E1 as Ec _ _. subst c. apply nth_error_nth'.
    assert (Hm2 : nth 2 (c_ptr (a_PT A)) 0 <= nth n (c_ptr (a_PT A)) 0).
    { clear - Hmono Hn. assert (G : forall m, 2 <= m -> m <= n -> nth 2 (c_ptr (a_PT A)) 0 <= nth m (c_ptr (a_PT A)) 0).
      { induction m as [|m IH]; [lia|]. intros H1 H2. destruct (Nat.eq_dec m 1) as [->|]; [lia|].
        specialize (IH ltac:(lia) ltac:(lia)). specialize (Hmono m ltac:(lia)). lia. }
      apply G; lia. }
    rewrite Hidx, <- Hlast. lia. }
  unfold diag_search. cbv zeta. rewrite Hp0, P1. cbn [diag_from Nat.sub]. rewrite F.
  assert (Hc : c <> 0).
  { intros ->. assert (He : In (0, v) (row_entries (a_PT A) 1)) by (rewrite E1; now left).
    assert (Hin : In 0 (map fst (row_entries PT 1))).
    { apply in_map_iff. exists (0, v). split; [reflexivity|]. now apply (sorted_entries n PT p sym A 1 (0, v) HA). }
    apply (stored_positive PT 1 0 Hr Hpe) in Hin. rewrite (proj2 (Hz 1 ltac:(lia) Hn)) in Hin. revert Hin. apply Qcle_not_lt, Qcle_refl. }
  change ((c <? 0)%nat) with false. cbn [andb]. destruct (Nat.eqb_spec c 0); [contradiction|reflexivity].
Qed.
Lemma meta_neighs n PT p sym A x y : usable_meta n PT p sym A -> x < n -> In y (sp_neighs A x) -> x = 0 <-> y = 0.
Proof.
  intros HU Hx Hy. assert (Hyn : y < n) by exact (neighs_range n PT p sym A (meta_level _ _ _ _ _ HU) x y Hx Hy).
  destruct HU as (HA & Hr & _ & _ & Hpe & _ & Hz & _).
  apply (sp_neighs_In n PT p sym A x y HA Hr Hpe Hx Hyn) in Hy.
  assert (Hirr : ~ (0 < 0)%num) by (apply Qcle_not_lt, Qcle_refl).
  split; intros ->.
  - destruct y as [|y]; [reflexivity|]. destruct (Hz (S y) ltac:(lia) Hyn) as [E1 E2]. rewrite E1, E2 in Hy. now destruct Hy.
  - destruct x as [|x]; [reflexivity|]. destruct (Hz (S x) ltac:(lia) Hx) as [E1 E2]. rewrite E1, E2 in Hy. now destruct Hy.
Qed.
Lemma aggregate_meta n PT p sym A q : usable_meta n PT p sym A -> valid q -> num_nodes q = n -> no_empty (cluster_list q) -> alone q ->
  exists PT' p' B, ac_aggregate A (cluster_list q) = Some B /\ usable_meta (length (cluster_list q)) PT' p' sym B /\
    forall a b, a < length (cluster_list q) -> b < length (cluster_list q) -> toarray B a b = aggregate (toarray A) q a b.
Proof.
  intros HU Hv Hn Hne Ha. pose proof HU as (HA & Hr & Hp & H0 & Hpe & Hrow & Hz & Hn1).
  destruct (aggregate_built n PT p sym A q ltac:(lia) HA Hp H0 Hv Hn) as (PT' & p' & B & E & HB & Hr' & Hp' & V0 & HV & Hpe').
  exists PT', p', B. split; [exact E|]. split; [|intros a b Xa Xb; now apply HV].
  assert (Hlen : 1 < length (cluster_list q)) by (apply (alone_others q 1 Hv Ha); lia).
  assert (Hmem : forall a x, 0 < a -> In x (nth a (cluster_list q) []) -> 0 < x /\ x < n).
  { intros a x Xa Hx. apply In_nth_in_cluster in Hx. split.
    - destruct x as [|x]; [|lia]. destruct Hv as [[_ [Hd _]] _]. rewrite (Hd 0 a 0) in Xa; [lia| |exact Hx]. now apply Ha.
    - rewrite <- Hn. apply Hv. now exists a. }
  assert (H00 : forall x, In x (nth 0 (cluster_list q) []) -> x = 0).
  { intros x Hx. apply In_nth_in_cluster in Hx. now apply Ha. }
  split; [exact HB|]. split; [exact Hr'|]. split; [exact Hp'|]. split; [exact V0|]. split; [now apply Hpe'|]. split; [|split; [|exact Hlen]].
  - intros a Xa Xl. assert (Ev : sumN (length (cluster_list q)) (value PT' a) = sumN (length (cluster_list q)) (aggregate (value PT) q a)).
    { apply sumN_ext. intros b Hb. now apply HV. }
    rewrite Ev, (aggregate_row_sum n (value PT) q a Hv Hn).
    unfold no_empty in Hne. rewrite Forall_forall in Hne. specialize (Hne _ (nth_In (cluster_list q) [] Xl)).
    assert (Hpos : forall x, In x (nth a (cluster_list q) []) -> (0 < sumN n (value PT x))%num).
    { intros x Hx. destruct (Hmem a x Xa Hx). now apply Hrow. }
    destruct (nth a (cluster_list q) []) as [|x c]; [contradiction|]. rewrite sumL_cons.
    assert (G1 : (0 < sumN n (value PT x))%num) by (apply Hpos; now left).
    assert (G2 : (0 <= sumL (fun x => sumN n (value PT x)) c)%num).
    { apply sumL_nonneg. intros y Hy. apply Qclt_le_weak, Hpos. now right. }
    revert G1 G2. generalize (sumN n (value PT x)) (sumL (fun x => sumN n (value PT x)) c). qlra.
  - intros b Xb Xl. assert (X0 : 0 < length (cluster_list q)) by lia. rewrite (proj2 (HV 0 b X0 Xl)), (proj2 (HV b 0 Xl X0)). unfold aggregate, block.
    split; apply sumL_zero; intros i Hi; apply sumL_zero; intros j Hj.
    + apply H00 in Hi. subst i. destruct (Hmem b j Xb Hj). now apply Hz.
    + apply H00 in Hj. subst j. destruct (Hmem b i Xb Hi). now apply Hz.
Qed.
Lemma sp_aggregate_meta n PT p sym A q : usable_meta n PT p sym A -> valid q -> num_nodes q = n -> no_empty (cluster_list q) -> alone q ->
  all_singletons q = false ->
  exists PT' p' B, sp_aggregate A q = Some B /\ usable_meta (length (cluster_list q)) PT' p' sym B /\
    forall a b, a < length (cluster_list q) -> b < length (cluster_list q) -> toarray B a b = aggregate (toarray A) q a b.
Proof.
  intros HU Hv Hn Hne Ha Hs. destruct (aggregate_meta n PT p sym A q HU Hv Hn Hne Ha) as (PT' & p' & B & E & HB & HT).
  exists PT', p', B. split; [|split; assumption]. unfold sp_aggregate. unfold get_num_clusters.
  destruct (Nat.eqb_spec (length (cluster_list q)) (num_nodes q)) as [El|_].
  - exfalso. rewrite (count_singletons q Hv Hne El) in Hs. discriminate.
  - rewrite E. apply (ac_copy_id (length (cluster_list q)) PT' p' sym B). apply HB.
Qed.

Lemma meta_loop_meta setord orders n PT p0 sym A thr nmeta nsub :
  is_iteration_order setord -> shuffles orders -> usable_meta n PT p0 sym A ->
  forall fuel p mA mp delta nm stop,
  valid p -> no_empty (cluster_list p) -> num_nodes p = n -> alone p ->
  (stop = false ->
     mp = part_default (length (cluster_list p)) /\
     (exists PT' p', usable_meta (length (cluster_list p)) PT' p' sym mA) /\
     forall a b, a < length (cluster_list p) -> b < length (cluster_list p) ->
       toarray mA a b = aggregate (toarray A) p a b) ->
  nmeta + 1 < fuel + nm -> nm <= nmeta + 1 ->
  exists p' n', sp_meta_loop fuel setord orders A thr nmeta nsub p mA mp delta nm stop = LDone p' n'
     /\ valid p' /\ no_empty (cluster_list p') /\ num_nodes p' = n /\ alone p' /\
     (compute_stability (toarray A) p <= compute_stability (toarray A) p')%num.
Proof.
  intros Hso Hsh HU. assert (Hpos : 1 < n) by apply HU. induction fuel as [|fuel IH]; intros p mA mp delta nm stop Hv Hne Hn Hal Hmeta Hf Hnm; [lia|].
  cbn [sp_meta_loop]. destruct (negb (qleb delta thr || stop || (nmeta <? nm))) eqn:E.
  2:{ exists p, nm. split; [reflexivity|]. repeat (split; [assumption || reflexivity|]). apply Qcle_refl. }
  apply negb_true_iff in E. apply orb_false_iff in E. destruct E as [E E3].
  apply orb_false_iff in E. destruct E as [_ E2]. apply Nat.ltb_ge in E3.
  destruct (Hmeta E2) as [Hmp [(PTm & pm & HUm) HmS]]. subst mp.
  assert (Hlen : 1 < length (cluster_list p)) by (apply (alone_others p 1 Hv Hal); lia).
  set (k := length (cluster_list p)) in *.
  assert (Hvk : valid (part_default k)) by apply default_valid.
  assert (Hord : forall q, order_in_range k (orders (S nm) q (num_nodes (part_default k)))).
  { intros q. now apply shuffles_in_range. }
  rewrite (move_nodes_dense k PTm pm sym mA (meta_level _ _ _ _ _ HUm)) by (try assumption; reflexivity).
  destruct (move_phase_spec setord (toarray mA) (sp_neighs mA)
              (fun q => orders (S nm) q (num_nodes (part_default k))) thr nsub (part_default k))
    as (mp' & d & n' & Hmv & Hvm & Hnm' & Hnem & Hd & Hst & _).
  - exact Hso.
  - exact Hvk.
  - apply (neighs_range k PTm pm sym mA (meta_level _ _ _ _ _ HUm)).
  - exact Hord.
  - rewrite Hmv.
    assert (Halm : alone mp').
    { unfold louvain_move_nodes in Hmv.
      refine (sweeps_alone setord (toarray mA) Hso (sp_neighs mA) _ thr nsub nsub (part_default k) _ _ _ mp' d n' Hvk _ Hord _ _ Hmv).
      - apply (neighs_range k PTm pm sym mA (meta_level _ _ _ _ _ HUm)).
      - intros x y Hx Hy. now apply (meta_neighs k PTm pm sym mA x y HUm).
      - apply default_alone. lia. }
    assert (Hnk : num_nodes mp' = k) by (rewrite Hnm'; reflexivity).
    assert (Hpp : 0 < num_nodes p) by lia.
    destruct (updated_partition_spec p mp' Hv Hne Hvm Hnem Hnk Hpp)
      as (p1 & Hu & Hv1 & Hne1 & Hn1 & Hsets).
    rewrite Hu.
    assert (Hal1 : alone p1) by exact (updated_alone p mp' p1 Hv Hal Hvm Halm Hv1 Hsets).
    assert (Hs1 : compute_stability (toarray A) p1 = (compute_stability (toarray A) p + d)%num).
    { rewrite (updated_stability (toarray A) p mp' p1) by assumption.
      rewrite (stability_ext (aggregate (toarray A) p) (toarray mA) mp') by
        (try exact Hvm; intros i j Hi Hj; symmetry; apply HmS; lia).
      rewrite Hst. f_equal. rewrite <- (aggregate_default_stability (toarray A) p).
      apply stability_ext; [exact Hvk|]. intros i j Hi Hj. apply HmS; assumption. }
    assert (Hge : (compute_stability (toarray A) p <= compute_stability (toarray A) p1)%num).
    { rewrite Hs1. revert Hd. generalize (compute_stability (toarray A) p) d. qlra. }
    assert (Hn1' : num_nodes p1 = n) by congruence.
    destruct (all_singletons p1 || (nmeta <? S nm) || qleb d thr) eqn:Estop.
    + destruct (IH p1 mA mp' d (S nm) true) as (p2 & n2 & H1 & H2 & H3 & H4 & H5 & H6);
        try assumption; try lia; try discriminate.
      exists p2, n2. split; [exact H1|]. repeat (split; [assumption|]). eapply Qcle_trans; eauto.
    + apply orb_false_iff in Estop. destruct Estop as [Estop _]. apply orb_false_iff in Estop. destruct Estop as [Es _].
      destruct (sp_aggregate_meta n PT p0 sym A p1 HU Hv1 Hn1' Hne1 Hal1 Es) as (PT' & p' & B & EB & HB & HT).
      rewrite EB.
      destruct (IH p1 B (part_default (length (cluster_list p1))) d (S nm) false) as (p2 & n2 & H1 & H2 & H3 & H4 & H5 & H6);
        try assumption; try lia.
      * intros _. split; [reflexivity|]. split; [exists PT', p'; exact HB|]. exact HT.
      * exists p2, n2. split; [exact H1|]. repeat (split; [assumption|]). eapply Qcle_trans; eauto.
Qed.
Lemma find_louvain_meta setord orders n PT p0 sym A thr nmeta nsub :
  is_iteration_order setord -> shuffles orders -> usable_meta n PT p0 sym A -> is_all_zeros A = false ->
  exists p' n', sp_find_louvain setord orders A thr nmeta nsub (part_default n) = LDone p' n' /\
     valid p' /\ no_empty (cluster_list p') /\ num_nodes p' = n /\ alone p' /\
     (compute_stability (toarray A) (part_default n) <= compute_stability (toarray A) p')%num.
Proof.
  intros Hso Hsh HU Hz. assert (Hpos : 1 < n) by apply HU. unfold sp_find_louvain. rewrite Hz, (ac_copy_id n PT p0 sym A (proj1 HU)).
  change (num_nodes (part_default n)) with n. rewrite part_of_list_default.
  destruct (meta_loop_meta setord orders n PT p0 sym A thr nmeta nsub Hso Hsh HU
     (Datatypes.S (Datatypes.S nmeta)) (part_default n) A (part_default n) 1%num 0 false)
    as (p' & n' & H1 & H2).
  - apply default_valid.
  - apply default_no_empty.
  - reflexivity.
  - apply default_alone. lia.
  - intros _. rewrite default_length. split; [reflexivity|]. split; [exists PT, p0; exact HU|].
    intros a b Ha Hb. symmetry. now apply default_aggregate_entry.
  - lia.
  - lia.
  - exists p', n'. split; [exact H1|exact H2].
Qed.
