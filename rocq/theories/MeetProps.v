(** C197: nodes that nothing connects are not put into one cluster. *)
From Coq Require Import Relations.
From Verif Require Import Base PartitionModel PartitionSpec PartitionProofs LouvainModel LouvainSpec LouvainProofs
  SparseModel SparseSpec SparseProofs AutocovModel AutocovSpec AutocovProofs AutocovCtorProofs SparseLouvainModel SparseLouvainSpec SparseLouvainProofs LouvainProps
  EventsModel EventsSpec EventsProofs EventsProps LaplacianProofs TransModel TransSpec MatProofs TransProofs TransProps FlowModel FlowSpec FlowProofs FlowGridProofs FlowProps FlowStabProofs FlowStabProps
  PipeModel PipeSpec PipeProofs PipeProps UnitProps ClustModel ClustProofs MeetSpec MeetProofs.
From Verif Require MultiProofs MultiProps.

(** * C197 *)
(** Full statement: nodes in one cluster of a flow integral are connected by walkers that can meet. *)
Definition C197_statement : Prop := forall setord orders n TL TI p1 tl rev m PT p A thr nmeta nsub q k,
  is_iteration_order setord -> shuffles orders -> 0 < n -> distribution_ok n p1 -> times_ok tl -> all_stochastic n TL TI -> 0 < m -> m <= steps_in TL TI tl ->
  holds n (the_distribution n p1) (flow_average n TL TI p1 tl rev m) PT p A ->
  sp_find_louvain setord orders A thr nmeta nsub (part_default n) = LDone q k ->
  forall x y, together q x y -> flows_together n (flow_transition n TL TI rev) m x y.

Lemma average_rows n TL TI p1 tl rev m : distribution_ok n p1 -> times_ok tl -> all_stochastic n TL TI -> 0 < m -> m <= steps_in TL TI tl ->
  zero_rows n (flow_average n TL TI p1 tl rev m).
Proof.
  intros Hp Ht HS H0 Hm. apply (average_covariance n); [now apply the_distribution_ok|].
  intros k Hk. apply flow_transition_stochastic; [exact HS|now apply (below_given TL TI tl k m)].
Qed.
(** Proved: unless the matrix is declared zero, and in any case for the uniform distribution on fewer than ten thousand nodes. *)
Theorem C197_flow_partial : forall setord orders n TL TI p1 tl rev m PT p A thr nmeta nsub q k,
  is_iteration_order setord -> shuffles orders -> 0 < n -> distribution_ok n p1 -> times_ok tl -> all_stochastic n TL TI -> 0 < m -> m <= steps_in TL TI tl ->
  holds n (the_distribution n p1) (flow_average n TL TI p1 tl rev m) PT p A -> is_all_zeros A = false \/ ((Z.of_nat n < 10000)%Z /\ p1 = None) ->
  sp_find_louvain setord orders A thr nmeta nsub (part_default n) = LDone q k ->
  forall x y, together q x y -> flows_together n (flow_transition n TL TI rev) m x y.
Proof.
  intros setord orders n TL TI p1 tl rev m PT p A thr nmeta nsub q k Hso Hsh Hn Hp Ht HS H0 Hm Hh Hc HF.
  refine (held_together setord orders n (the_distribution n p1) _ PT p A thr nmeta nsub q k _ Hso Hsh Hn Hh (average_rows n TL TI p1 tl rev m Hp Ht HS H0 Hm) _ _ HF).
  - destruct Hc as [Hc|[Hc ->]]; [now left|right]. split; [exact Hc|reflexivity].
  - intros i j Hi Hj L. apply (average_meet n (the_distribution n p1) _ (flow_times TL TI tl rev)); try assumption.
    + now apply the_distribution_ok.
    + intros a Ha. apply flow_transition_stochastic; [exact HS|now apply (below_given TL TI tl a m)].
    + now apply ts_monotone.
    + now apply below_times.
Qed.

(** Dense matrices, which are searched together with the transition over all steps, network_clustering.py l.2125-2132. *)
Theorem C197_dense_partial : forall setord orders n TL TI p1 tl rev m M thr nmeta nsub q k,
  is_iteration_order setord -> shuffles orders -> 0 < n -> distribution_ok n p1 -> times_ok tl -> all_stochastic n TL TI -> 0 < m -> m <= steps_in TL TI tl ->
  eqm n M (flow_average n TL TI p1 tl rev m) -> S_is_zero n M = false \/ p1 = None ->
  find_louvain setord orders (flow_transition n TL TI rev (m - 1)) M thr nmeta nsub (part_default n) = LDone q k ->
  forall x y, together q x y -> flow_connects n (flow_transition n TL TI rev) m x y.
Proof.
  intros setord orders n TL TI p1 tl rev m M thr nmeta nsub q k Hso Hsh Hn Hp Ht HS H0 Hm HM Hc HF x y Hxy.
  assert (HSt : forall a, a < m -> stochastic n (flow_transition n TL TI rev a)) by (intros a Ha; apply flow_transition_stochastic; [exact HS|now apply (below_given TL TI tl a m)]).
  destruct (S_is_zero n M) eqn:HZ.
  - destruct Hc as [|Hc]; [discriminate|]. subst p1. rewrite (find_louvain_zero setord orders _ M thr nmeta nsub (part_default n) Hn HZ) in HF.
    assert (HF' : full_partition n = q) by (change (num_nodes (part_default n)) with n in HF; congruence). subst q. destruct Hxy as (i & Hx & Hy). rewrite (full_partition_clusters n Hn) in Hx, Hy.
    destruct i as [|i]; [|destruct Hx as (c & Hc & _); destruct i; discriminate Hc].
    destruct Hx as (c & Hc & Hx), Hy as (c' & Hc' & Hy). injection Hc as <-. injection Hc' as <-. apply seq_In_iff in Hx, Hy.
    apply meet_connected. apply (average_meet n (the_distribution n None) _ (flow_times TL TI tl rev)); try assumption.
    + now apply the_distribution_ok.
    + now apply ts_monotone.
    + now apply below_times.
    + change (time_average n (the_distribution n None) (flow_transition n TL TI rev) (flow_times TL TI tl rev) m x y) with (flow_average n TL TI None tl rev m x y).
      rewrite <- (HM x y Hx Hy). now apply uniform_zero_meets.
  - assert (HL := MultiProofs.find_louvain_linked setord orders n (flow_transition n TL TI rev (m - 1)) M thr nmeta nsub q k Hso Hsh Hn (proj1 (HSt (m - 1) ltac:(lia))) HZ HF x y Hxy).
    revert HL. apply rst_incl. intros a b (Ha & Hb & L). apply rst_step. repeat split; try assumption. exists (m - 1). split; [lia|exact L].
Qed.

(** ** The analysis *)
Lemma connected_acquainted n M t rev : (forall B, In B M -> forall i j, i < n -> j < n -> B i j <> 0%num -> acquainted t i j) ->
  forall m x y, flow_connects n (flow_transition n None (Some M) rev) m x y -> acquainted t x y.
Proof.
  intros HM m. apply rst_incl. intros x c (Hx & Hc & k & _ & L1).
  assert (HT : forall a, a < n -> (0 < flow_transition n None (Some M) rev k a c)%num -> acquainted t a c).
  { intros a Ha L. unfold flow_transition, transition in L. cbn [given] in L. refine (chain_within n (firstn (S k) (in_order rev M)) (acquainted t) _ _ _ a c Ha Hc (qneq_pos _ L)).
    - intros; apply rst_refl.
    - intros u v w; apply rst_trans.
    - intros B HB. apply HM. assert (HB' : In B (in_order rev M)) by (rewrite <- (firstn_skipn (S k)); apply in_or_app; now left). unfold in_order in HB'. destruct rev; [now apply in_rev|exact HB']. }
  now apply HT.
Qed.
Lemma meeting_acquainted n M t rev : (forall B, In B M -> forall i j, i < n -> j < n -> B i j <> 0%num -> acquainted t i j) ->
  forall m x y, flows_together n (flow_transition n None (Some M) rev) m x y -> acquainted t x y.
Proof.
  intros HM m x y H. apply (connected_acquainted n M t rev HM m). revert H. apply rst_incl. intros a b. apply meet_connected.
Qed.
Lemma analysis_matrices fuel reset srcs tgts starts ends N g E P k q l dir :
  make_net fuel reset false srcs tgts starts ends = Some N -> rows N <> [] -> ids_ok N = true -> no_self_contact (rows N) -> is_time_grid (rows N) g ->
  expm_ok (num_nodes_of N) E -> stays_within (num_nodes_of N) E ->
  2 <= length (times (rows N)) -> no_scale_keywords k -> fits (num_nodes_of N) (k_p1 q) = true ->
  distribution_ok (num_nodes_of N) (given_density (k_p1 q)) -> k_grid q = None -> Forall PipeSpec.usable l -> ~ In None l ->
  exists A, analysis (num_nodes_of N) (times (rows N)) (compute_laplacians N g) E P k q l dir (one_each dir l A) /\
    (forall w rev, In (Some w) l -> wanted dir rev = true -> exists M,
      eqm (num_nodes_of N) (A (Some w) rev) (flow_average (num_nodes_of N) None (Some M) (given_density (k_p1 q)) (Some (times (rows N))) rev (length (times (rows N)) - 1)) /\
      length M = length (times (rows N)) - 1 /\
      (forall B, In B M -> forall i j, i < num_nodes_of N -> j < num_nodes_of N -> B i j <> 0%num -> acquainted (rows N) i j) /\
      all_stochastic (num_nodes_of N) None (Some M)) /\
    times_ok (Some (times (rows N))) /\ 0 < num_nodes_of N.
Proof.
  intros HN Hne Hids Hself HG HE HEs H2 Hk Hf Hp Hg Hu Hnone.
  destruct (C39_network_laplacians _ _ _ _ _ _ N g HN Hne Hids Hself HG) as [HL HS].
  destruct (C152_network_whole _ _ _ _ _ _ N g HN Hne Hids Hself HG) as [Ls HW].
  destruct (C152_analysis_partial _ _ _ E P Ls k q l dir HL HS HE HW H2 Hk Hf Hp Hg Hu Hnone) as (s1 & s2 & s3 & A & A1 & A2 & A3 & A4 & A5).
  exists A. set (n := num_nodes_of N) in *. set (ts := times (rows N)) in *.
  split; [now exists s1, s2, s3|]. split; [|split].
  2:{ cbn. now apply increasing_sorted. }
  2:{ destruct n; [|lia]. exfalso. destruct (k_p1 q) as [p'|]; cbn in Hp; [|lia]. destruct Hp as [_ Hp]. discriminate Hp. }
  intros w rev Hw Hd. destruct (A5 w rev Hw Hd) as (M & HM & EA). exists M. split; [exact EA|].
  assert (HO : own_index (rows N)). { unfold make_net in HN. destruct (build_table reset srcs tgts starts ends) as [t|] eqn:EB; [|discriminate]. injection HN as <-. now destruct (build_table_perm _ _ _ _ _ _ EB) as (_ & _ & _ & HO & _). }
  destruct (proj2 HM ltac:(lia)) as [HLM HK]. rewrite Nat.sub_0_r in HLM, HK.
  assert (HMn : forall B, In B M -> forall i j, i < n -> j < n -> B i j <> 0%num -> acquainted (rows N) i j).
  { intros B HB i j Hi Hj Hnz. destruct (In_nth M B ident HB) as (a & Ha & <-). rewrite (HK a ltac:(lia) i j Hi Hj) in Hnz.
    apply (linked_within n (nth a Ls ident) (acquainted (rows N))); [intros; apply rst_refl|intros u v; apply rst_sym|intros u v z; apply rst_trans| |now apply (HEs _ _ i j Hi Hj Hnz)].
    intros u v Hu' Hv' Huv. apply (laplacians_join N g Hne Hids Hself HO HG Ls HW a); try assumption. fold ts. lia. }
  assert (HSt : all_stochastic n None (Some M)).
  { destruct (HL None None) as (ka & kb & Ls' & EL & Hkb & HLs & Hwl). unfold whole_time in HW. rewrite HW in EL. assert (EL' : ka = 0 /\ kb = length ts - 1 /\ Ls' = Ls) by (split; [congruence|split; congruence]).
    destruct EL' as (-> & -> & ->). refine (proj2 (per_step_stochastic n 0 (length ts - 1) _ M HM _)). intros a Ha. apply (proj1 HE); [|now apply Hwl].
    rewrite Forall_forall in Hu. specialize (Hu _ Hw). cbn in Hu. apply qmult_nonneg; [apply sorted_step; [exact HS|lia]|]. now apply (PipeProofs.inv_pos w). }
  split; [exact HLM|]. split; [exact HMn|exact HSt].
Qed.
(** the whole analysis, for exponentials that keep the connected components apart: nodes put together are connected by contacts *)
Theorem C197_analysis_partial : forall fuel reset srcs tgts starts ends N g E P k q l dir,
  make_net fuel reset false srcs tgts starts ends = Some N -> rows N <> [] -> ids_ok N = true -> no_self_contact (rows N) -> is_time_grid (rows N) g ->
  expm_ok (num_nodes_of N) E -> stays_within (num_nodes_of N) E ->
  2 <= length (times (rows N)) -> no_scale_keywords k -> fits (num_nodes_of N) (k_p1 q) = true ->
  distribution_ok (num_nodes_of N) (given_density (k_p1 q)) -> k_grid q = None -> Forall PipeSpec.usable l -> ~ In None l ->
  exists A, analysis (num_nodes_of N) (times (rows N)) (compute_laplacians N g) E P k q l dir (one_each dir l A) /\
    forall w rev setord orders PT p Ac thr nmeta nsub cl lev, In (Some w) l -> wanted dir rev = true ->
      is_iteration_order setord -> shuffles orders ->
      holds (num_nodes_of N) (the_distribution (num_nodes_of N) (given_density (k_p1 q))) (A (Some w) rev) PT p Ac ->
      is_all_zeros Ac = false \/ ((Z.of_nat (num_nodes_of N) < 10000)%Z /\ k_p1 q = None) ->
      sp_find_louvain setord orders Ac thr nmeta nsub (part_default (num_nodes_of N)) = LDone cl lev ->
      forall x y, together cl x y -> acquainted (rows N) x y.
Proof.
  intros fuel reset srcs tgts starts ends N g E P k q l dir HN Hne Hids Hself HG HE HEs H2 Hk Hf Hp Hg Hu Hnone.
  destruct (analysis_matrices fuel reset srcs tgts starts ends N g E P k q l dir HN Hne Hids Hself HG HE HEs H2 Hk Hf Hp Hg Hu Hnone) as (A & HA & HX & Hts & Hn0).
  exists A. split; [exact HA|]. intros w rev setord orders PT p Ac thr nmeta nsub cl lev Hw Hd Hso Hsh Hh Hc HF x y Hxy.
  destruct (HX w rev Hw Hd) as (M & EA & HLM & HMn & HSt). set (n := num_nodes_of N) in *. set (ts := times (rows N)) in *.
  apply (meeting_acquainted n M (rows N) rev HMn (length ts - 1)).
  apply (C197_flow_partial setord orders n None (Some M) (given_density (k_p1 q)) (Some ts) rev (length ts - 1) PT p Ac thr nmeta nsub cl lev); try assumption.
  - lia.
  - unfold steps_in. cbn [given the_times]. lia.
  - destruct Hh as (B1 & B2 & B3 & B4). split; [exact B1|]. split; [exact B2|]. split; [exact B3|]. intros i j Hi Hj. rewrite B4 by assumption. now apply EA.
  - destruct Hc as [Hc|[Hc Hq]]; [now left|right]. split; [exact Hc|]. now rewrite Hq.
Qed.
(** the same for dense matrices; the transition matrices of the flow are those of the analysis *)
Theorem C197_dense_analysis_partial : forall fuel reset srcs tgts starts ends N g E P k q l dir,
  make_net fuel reset false srcs tgts starts ends = Some N -> rows N <> [] -> ids_ok N = true -> no_self_contact (rows N) -> is_time_grid (rows N) g ->
  expm_ok (num_nodes_of N) E -> stays_within (num_nodes_of N) E ->
  2 <= length (times (rows N)) -> no_scale_keywords k -> fits (num_nodes_of N) (k_p1 q) = true ->
  distribution_ok (num_nodes_of N) (given_density (k_p1 q)) -> k_grid q = None -> Forall PipeSpec.usable l -> ~ In None l ->
  exists A, analysis (num_nodes_of N) (times (rows N)) (compute_laplacians N g) E P k q l dir (one_each dir l A) /\
    forall w rev, In (Some w) l -> wanted dir rev = true -> exists M,
      eqm (num_nodes_of N) (A (Some w) rev) (flow_average (num_nodes_of N) None (Some M) (given_density (k_p1 q)) (Some (times (rows N))) rev (length (times (rows N)) - 1)) /\
      forall setord orders thr nmeta nsub cl lev, is_iteration_order setord -> shuffles orders ->
        S_is_zero (num_nodes_of N) (A (Some w) rev) = false \/ k_p1 q = None ->
        find_louvain setord orders (flow_transition (num_nodes_of N) None (Some M) rev (length (times (rows N)) - 1 - 1)) (A (Some w) rev) thr nmeta nsub (part_default (num_nodes_of N)) = LDone cl lev ->
        forall x y, together cl x y -> acquainted (rows N) x y.
Proof.
  intros fuel reset srcs tgts starts ends N g E P k q l dir HN Hne Hids Hself HG HE HEs H2 Hk Hf Hp Hg Hu Hnone.
  destruct (analysis_matrices fuel reset srcs tgts starts ends N g E P k q l dir HN Hne Hids Hself HG HE HEs H2 Hk Hf Hp Hg Hu Hnone) as (A & HA & HX & Hts & Hn0).
  exists A. split; [exact HA|]. intros w rev Hw Hd. destruct (HX w rev Hw Hd) as (M & EA & HLM & HMn & HSt). exists M. split; [exact EA|].
  intros setord orders thr nmeta nsub cl lev Hso Hsh Hc HF x y Hxy. set (n := num_nodes_of N) in *. set (ts := times (rows N)) in *.
  apply (connected_acquainted n M (rows N) rev HMn (length ts - 1)).
  apply (C197_dense_partial setord orders n None (Some M) (given_density (k_p1 q)) (Some ts) rev (length ts - 1) (A (Some w) rev) thr nmeta nsub cl lev); try assumption.
  - lia.
  - unfold steps_in. cbn [given the_times]. lia.
  - destruct Hc as [Hc|Hq]; [now left|right]. now rewrite Hq.
Qed.

(** ** Two separate halves *)
(** in each of two halves of [h] nodes walkers go anywhere *)
Definition halves (h : nat) : mat := fun i j => if Bool.eqb (i <? h) (j <? h) then (1 / qn h)%num else 0%num.
Definition halves_PT (h : nat) : mat := fun i j => (1 / qn (h + h) * halves h i j)%num.
Lemma sum_halves h m (f : nat -> num) : sumN (h + m) f = (sumN h f + sumN m (fun c => f (h + c)%nat))%num.
Proof.
  induction m as [|m IH]; [rewrite Nat.add_0_r; change (sumN 0 _) with 0%num; ring|]. rewrite Nat.add_succ_r, !sumN_S, IH. ring.
Qed.
Lemma halves_sym h i j : halves h i j = halves h j i.
Proof. unfold halves. now destruct (i <? h), (j <? h). Qed.
(** what is the same inside a half and zero outside sums to that of one half *)
Lemma sum_half h i (x : num) : sumN (h + h) (fun c => if Bool.eqb (i <? h) (c <? h) then x else 0%num) = (qn h * x)%num.
Proof.
  rewrite sum_halves. rewrite (sumN_ext h _ (fun _ => if i <? h then x else 0%num)).
  2:{ intros c Hc. rewrite (proj2 (Nat.ltb_lt c h) Hc). now destruct (i <? h). }
  rewrite (sumN_ext h (fun c => if Bool.eqb (i <? h) (h + c <? h) then x else 0%num) (fun _ => if i <? h then 0%num else x)).
  2:{ intros c _. rewrite (proj2 (Nat.ltb_ge (h + c) h)) by lia. now destruct (i <? h). }
  unfold sumN. rewrite !sumL_const, seq_length. destruct (i <? h); unfold qn; ring.
Qed.
Section Halves.
Context (h : nat) (Hh : 0 < h).
Local Notation n := (h + h).
Lemma h_pos : (0 < qn h)%num.
Proof. apply Qclt_le_trans with (qn 1); [reflexivity|now apply qn_le]. Qed.
Lemma n_pos : (0 < qn (h + h))%num.
Proof. apply Qclt_le_trans with (qn 1); [reflexivity|apply qn_le; lia]. Qed.
Lemma halves_row i : sumN n (halves h i) = 1%num.
Proof. unfold halves. rewrite sum_half. field. apply qneq_pos, h_pos. Qed.
Lemma halves_stochastic : stochastic n (halves h).
Proof.
  split; [|intros i _; apply halves_row]. intros i j _ _. unfold halves. destruct (Bool.eqb _ _); [|discriminate]. apply qdiv_nonneg; [discriminate|apply h_pos].
Qed.
Lemma halves_at_end c : at_end n (fun _ => 1 / qn n)%num (halves h) c = (1 / qn n)%num.
Proof.
  unfold at_end. rewrite sumN_scal_l. rewrite (sumN_ext n (fun i => halves h i c) (halves h c)) by (intros; apply halves_sym). rewrite halves_row. ring.
Qed.
Lemma halves_twice i j : sumN n (fun c => halves h i c * halves h j c)%num = halves h i j.
Proof.
  assert (Hq := qneq_pos _ h_pos). transitivity (sumN n (fun c => if Bool.eqb (i <? h) (c <? h) then 1 / qn h * halves h i j else 0)%num).
  - apply sumN_ext. intros c _. unfold halves. destruct (i <? h), (j <? h), (c <? h); cbn [Bool.eqb]; ring.
  - rewrite sum_half. field. exact Hq.
Qed.
Lemma halves_cov i j : flow_cov n (fun _ => 1 / qn n)%num (halves h) i j = (halves_PT h i j - 1 / qn n * (1 / qn n))%num.
Proof.
  assert (Hq := qneq_pos _ n_pos). unfold flow_cov, halves_PT. f_equal. rewrite (sumN_ext n _ (fun c => 1 / qn n * (halves h i c * halves h j c))%num).
  - rewrite sumN_scal_l. now rewrite halves_twice.
  - intros c _. rewrite halves_at_end. destruct (qeqb_spec (1 / qn n)%num 0%num) as [E|E].
    + exfalso. revert E. apply qneq_pos, qdiv_pos; [reflexivity|apply n_pos].
    + field. split; [exact Hq|discriminate].
Qed.
Lemma halves_average i j : flow_average n (Some [halves h]) None None None false 1 i j = (halves_PT h i j - 1 / qn n * (1 / qn n))%num.
Proof.
  rewrite <- halves_cov. unfold flow_average, time_average, flow_times. cbn [the_times given length seq map flow_transition nth the_distribution gap].
  unfold gap. cbn [the_times given length seq map nth]. rewrite sumN_S. change (sumN 0 _) with 0%num. cbn [nth].
  replace (qabs (qn 1 - qn 0)) with 1%num by now apply Qc_is_canon. field. discriminate.
Qed.
Definition halves_p : probs := PScal (1 / qn n)%num (1 / qn n)%num.
Lemma halves_PT_nonneg i j : (0 <= halves_PT h i j)%num.
Proof.
  unfold halves_PT. apply qmult_nonneg; [apply qdiv_nonneg; [discriminate|apply n_pos]|]. unfold halves. destruct (Bool.eqb _ _); [|discriminate]. apply qdiv_nonneg; [discriminate|apply h_pos].
Qed.
Lemma halves_hold : exists A, ac_init (csr_of n (halves_PT h)) halves_p true = Some A /\
  holds n (the_distribution n None) (flow_average n (Some [halves h]) None None None false 1) (csr_of n (halves_PT h)) halves_p A.
Proof.
  destruct (built_init n (csr_of n (halves_PT h)) halves_p true (csr_of_ok n _) I) as [A EA]. exists A. split; [exact EA|].
  assert (HB : built n (csr_of n (halves_PT h)) halves_p true A).
  { split; [apply csr_of_ok|]. split; [|exact EA]. intros _ i j Hi Hj. rewrite !csr_of_value by assumption. unfold halves_PT. now rewrite halves_sym. }
  split; [|split; [|split]].
  - split; [exact HB|]. split; [apply csr_of_norep|]. split; [split; reflexivity|]. split.
    + intros i j Hi Hj. rewrite csr_of_value by assumption. apply halves_PT_nonneg.
    + intros i Hi. rewrite (sumN_ext n (value (csr_of n (halves_PT h)) i) (halves_PT h i)) by (intros j Hj; now apply csr_of_value).
      unfold halves_PT. rewrite sumN_scal_l. change (fun j => halves h i j) with (halves h i). rewrite halves_row. apply qmult_pos; [apply qdiv_pos; [reflexivity|apply n_pos]|reflexivity].
  - apply csr_of_positive. intros i j _ _. apply halves_PT_nonneg.
  - reflexivity.
  - intros i j Hi Hj. rewrite (built_toarray n _ _ _ A i j HB Hi Hj), csr_of_value, halves_average by assumption. reflexivity.
Qed.
Lemma halves_apart x y : flows_together n (flow_transition n (Some [halves h]) None false) 1 x y -> (x <? h) = (y <? h).
Proof.
  intros H. induction H as [x y (Hx & Hy & k & c & Hk & Hc & L1 & L2)|x|x y H IH|x y z H1 I1 H2 I2]; try congruence.
  replace k with 0 in * by lia. cbn [flow_transition nth] in L1, L2. unfold halves in L1, L2. destruct (x <? h), (y <? h), (c <? h); cbn [Bool.eqb] in L1, L2; try reflexivity; discriminate.
Qed.
(** with ten thousand nodes or more the matrix is declared zero *)
Lemma halves_zero A : (5000 <= Z.of_nat h)%Z -> built n (csr_of n (halves_PT h)) halves_p true A -> is_all_zeros A = true.
Proof.
  intros H5 HB. apply (is_all_zeros_spec n _ _ _ A HB). intros i e Hi He. rewrite csr_of_row in He by exact Hi.
  apply in_map_iff in He. destruct He as (j & <- & Hj). apply filter_In in Hj. destruct Hj as [_ Hj]. cbn [fst snd].
  change (p0_at halves_p i j) with (1 / qn n * (1 / qn n))%num. unfold halves_PT, halves in *. destruct (Bool.eqb (i <? h) (j <? h)).
  2:{ exfalso. destruct (qeqb_spec (1 / qn n * 0)%num 0%num) as [|N]; [discriminate|]. apply N. ring. }
  assert (Hq := qneq_pos _ h_pos). assert (HN : qn n = (qn h + qn h)%num) by apply qn_plus.
  assert (Hq2 : (qn h + qn h)%num <> 0%num) by (rewrite <- HN; apply qneq_pos; now apply n_pos).
  assert (HU : (1 / qn h = 1 / qn n + 1 / qn n)%num) by (rewrite HN; field; split; assumption).
  unfold allclose. destruct (qleb_spec (qabs (1 / qn n * (1 / qn h) - 1 / qn n * (1 / qn n))) (qf 1 100000000 + qf 1 100000 * qabs (1 / qn n * (1 / qn n)))) as [|N]; [reflexivity|].
  exfalso. apply N. clear N Hj.
  rewrite HU. set (u := (1 / qn n)%num) in *.
  assert (U0 : (0 < u)%num) by (apply qdiv_pos; [reflexivity|apply n_pos]).
  assert (U1 : (u <= qf 1 10000)%num).
  { assert (L : (qf 10000 1 <= qn n)%num) by (unfold qn, qz, qf, Qcle, Q2Qc; cbn [this]; rewrite !Qred_correct; unfold inject_Z, Qle; cbn [Qnum Qden]; lia).
    assert (E : (u * qn n = 1)%num) by (unfold u; field; apply qneq_pos, n_pos).
    apply Qcnot_lt_le. intros L2. assert (X : (1 < u * qn n)%num).
    { apply Qclt_le_trans with (u * qf 10000 1)%num; [revert L2; unfold qf; generalize u; clear; intros u; qlra|]. rewrite !(Qcmult_comm u). apply Qcmult_le_compat_r; [exact L|now apply Qclt_le_weak]. }
    rewrite E in X. revert X. now vm_compute. }
  assert (U2 : (0 <= u * u)%num) by (apply qmult_nonneg; now apply Qclt_le_weak).
  assert (U3 : (u * u <= qf 1 100000000)%num).
  { apply Qcle_trans with (qf 1 10000 * u)%num; [apply Qcmult_le_compat_r; [exact U1|now apply Qclt_le_weak]|]. revert U1. generalize u. clear. unfold qf. intros u. qlra. }
  replace (u * (u + u) - u * u)%num with (u * u)%num by ring. rewrite (qabs_pos _ U2). revert U2 U3. generalize (u * u)%num. clear. unfold qf. qlra.
Qed.
End Halves.
(** Refuted: with ten thousand nodes the matrix of two halves that never meet is declared zero, and all nodes are put into one cluster. *)
Theorem C197_many_nodes : forall h setord orders thr nmeta nsub, (5000 <= Z.of_nat h)%Z -> exists PT p A,
  distribution_ok (h + h) None /\ all_stochastic (h + h) (Some [halves h]) None /\
  holds (h + h) (the_distribution (h + h) None) (flow_average (h + h) (Some [halves h]) None None None false 1) PT p A /\
  sp_find_louvain setord orders A thr nmeta nsub (part_default (h + h)) = LDone (full_partition (h + h)) 0 /\
  together (full_partition (h + h)) 0 h /\ ~ flows_together (h + h) (flow_transition (h + h) (Some [halves h]) None false) 1 0 h.
Proof.
  intros h setord orders thr nmeta nsub H5. assert (Hh : 0 < h) by lia. destruct (halves_hold h Hh) as (A & EA & HA). exists (csr_of (h + h) (halves_PT h)), (halves_p h), A.
  split; [cbn; lia|]. split; [intros B [<-|[]]; now apply halves_stochastic|]. split; [exact HA|]. split; [|split].
  - unfold sp_find_louvain. rewrite (halves_zero h Hh A H5); [reflexivity|apply HA].
  - exists 0. rewrite full_partition_clusters by lia. split; (exists (seq 0 (h + h)); split; [reflexivity|apply seq_In_iff; lia]).
  - intros H. apply (halves_apart h Hh) in H. rewrite (proj2 (Nat.ltb_lt 0 h) Hh), Nat.ltb_irrefl in H. discriminate H.
Qed.
Theorem C197_many_nodes_refuted : ~ C197_statement.
Proof.
  intros H. assert (Hex : exists h, (5000 <= Z.of_nat h)%Z) by (exists (Z.to_nat 5000); lia). destruct Hex as [h H5].
  destruct (C197_many_nodes h MultiProps.same_order MultiProps.by_number (qf 1 100000000) 0 0 H5) as (PT & p & A & H1 & H2 & H3 & H4 & H6 & H7). apply H7.
  refine (H _ _ (h + h) (Some [halves h]) None None None false 1 PT p A (qf 1 100000000) 0 0 _ _ MultiProps.same_order_ok MultiProps.by_number_ok ltac:(lia) H1 I H2 Nat.lt_0_1 _ H3 H4 0 h H6).
  unfold steps_in. cbn. lia.
Qed.
(** two pairs of nodes stay two pairs; and the step that replaces the exponential in examples keeps components apart *)
Example C197_applies : (exists A, ac_init (csr_of 4 (halves_PT 2)) (halves_p 2) true = Some A /\
    holds 4 (the_distribution 4 None) (flow_average 4 (Some [halves 2]) None None None false 1) (csr_of 4 (halves_PT 2)) (halves_p 2) A /\ is_all_zeros A = false /\
    match sp_find_louvain MultiProps.same_order MultiProps.by_number A (qf 1 100000000) 5 5 (part_default 4) with LDone q _ => cluster_list q = [[0; 1]; [2; 3]] | _ => False end) /\
  stays_within 3 Estep /\ acquainted (rows net39) 0 2.
Proof.
  split; [|split].
  - destruct (halves_hold 2 Nat.lt_0_2) as (A & EA & HA). exists A. split; [exact EA|]. split; [exact HA|].
    assert (X : match ac_init (csr_of 4 (halves_PT 2)) (halves_p 2) true with Some A => is_all_zeros A = false /\ match sp_find_louvain MultiProps.same_order MultiProps.by_number A (qf 1 100000000) 5 5 (part_default 4) with LDone q _ => cluster_list q = [[0; 1]; [2; 3]] | _ => False end | None => False end) by (vm_compute; split; reflexivity).
    change 4 with (2 + 2) in X. rewrite EA in X. exact X.
  - intros x L i j Hi Hj H. destruct (Nat.eq_dec i j) as [->|Hij]; [now constructor|]. apply (TransSpec.linked_step 3 _ i i j); [now constructor|exact Hj|]. left. intros Z. apply H.
    unfold Estep, mminus, mscal, ident. rewrite Z, (proj2 (Nat.eqb_neq i j) Hij). ring.
  - apply rst_trans with 1; apply rst_step; vm_compute.
    + eexists. split; [left; reflexivity|]. left. split; reflexivity.
    + eexists. split; [right; left; reflexivity|]. left. split; reflexivity.
Qed.
Print Assumptions C197_many_nodes.
Print Assumptions C197_many_nodes_refuted.
Print Assumptions C197_flow_partial.
Print Assumptions C197_analysis_partial.
Print Assumptions C197_dense_partial.
Print Assumptions C197_dense_analysis_partial.
