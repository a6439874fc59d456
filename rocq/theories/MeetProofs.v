(** The search on a SparseAutocovMat stays within the connected components of its matrix. *)
From Coq Require Import Relations.
From Verif Require Import Base PartitionModel PartitionSpec PartitionProofs LouvainModel LouvainSpec LouvainProofs
  SparseModel SparseSpec SparseProofs AutocovModel AutocovSpec AutocovProofs AutocovCtorProofs SparseLouvainModel SparseLouvainSpec SparseLouvainProofs
  EventsModel EventsSpec EventsProofs LaplacianProofs TransModel TransSpec MatProofs FlowModel FlowSpec FlowProofs MeetSpec.
From Verif Require MultiSpec MultiProofs.

Section Levels.
Context (setord : list nat -> list nat) (orders : nat -> nat -> nat -> list nat) (n : nat) (PT : csr) (p0 : probs) (sym : bool) (A : autocov) (thr : num) (nmeta nsub : nat).
Hypothesis Hso : is_iteration_order setord.
Hypothesis Hsh : shuffles orders.
Hypothesis HU : usable n PT p0 sym A.
Hypothesis Hpe : positive_entries PT.
Context (R : nat -> nat -> Prop).
Hypothesis Rsym : forall x y, R x y -> R y x.
Hypothesis Rtrans : forall x y z, R x y -> R y z -> R x z.
Hypothesis RT : forall x y, x < n -> y < n -> (0 < value PT x y)%num -> R x y.
Local Notation lifted := (MultiProofs.lifted R).
Local Notation within := (MultiProofs.within).

Lemma sp_meta_loop_within : forall fuel p mA mp delta nm stop,
  valid p -> no_empty (cluster_list p) -> num_nodes p = n -> 0 < n -> within R p ->
  (stop = false -> mp = part_default (length (cluster_list p)) /\
     exists PT' p', usable (length (cluster_list p)) PT' p' sym mA /\ positive_entries PT' /\
       forall a b, a < length (cluster_list p) -> b < length (cluster_list p) -> (0 < value PT' a b)%num -> lifted p a b) ->
  match sp_meta_loop fuel setord orders A thr nmeta nsub p mA mp delta nm stop with
  | LDone q _ | LRaised q => within R q
  | LFuel => True
  end.
Proof.
  induction fuel as [|fuel IH]; intros p mA mp delta nm stop Hv Hne Hn Hpos HW Hmeta; cbn [sp_meta_loop];
    (destruct (negb (qleb delta thr || stop || (nmeta <? nm))) eqn:E; [|exact HW]); [exact I|].
  apply negb_true_iff in E. apply orb_false_iff in E. destruct E as [E _]. apply orb_false_iff in E. destruct E as [_ E2].
  destruct (Hmeta E2) as [-> (PTm & pm & HUm & Hpm & HmT)]. set (k := length (cluster_list p)) in *.
  assert (Hvk : valid (part_default k)) by apply default_valid.
  assert (Hord : forall q, order_in_range k (orders (S nm) q (num_nodes (part_default k)))) by (intros q; now apply shuffles_in_range).
  assert (HLv := usable_level _ _ _ _ _ HUm). assert (Hr := neighs_range k PTm pm sym mA HLv).
  rewrite (move_nodes_dense k PTm pm sym mA HLv) by (try assumption; reflexivity).
  destruct (move_phase_spec setord (toarray mA) (sp_neighs mA) (fun q => orders (S nm) q (num_nodes (part_default k))) thr nsub (part_default k) Hso Hvk Hr Hord)
    as (mp' & d & n' & Hmv & Hvm & Hnm & Hnem & _).
  rewrite Hmv.
  assert (HWm : within (lifted p) mp').
  { unfold louvain_move_nodes in Hmv. refine (MultiProofs.sweeps_within setord (toarray mA) Hso (lifted p) (MultiProofs.lifted_sym R Rsym p) (fun a b c => MultiProofs.lifted_trans R Rtrans p a b c HW) (sp_neighs mA) (fun q => orders (S nm) q k) thr nsub nsub (part_default k) 1%num 0%num 1 mp' d n' Hvk Hr Hord _ _ Hmv).
    - intros x y Hx Hy. change (num_nodes (part_default k)) with k in Hx. assert (Hyk := Hr x y Hx Hy).
      apply (sp_neighs_In k PTm pm sym mA x y) in Hy; try assumption; try apply HUm.
      destruct Hy as [Hy|Hy]; [now apply HmT|]. apply (MultiProofs.lifted_sym R Rsym). now apply HmT.
    - now apply MultiProofs.default_lifted. }
  assert (Hp0 : 0 < num_nodes p) by lia.
  destruct (updated_stands_for p mp' Hv Hne Hvm Hnem) as (p1 & Hu & Hv1 & Hne1 & HN1 & Hst); [now rewrite Hnm|exact Hp0|]. rewrite Hu.
  assert (HW1 : within R p1).
  { intros x y Hxy. apply Hst in Hxy. destruct Hxy as (a & b & Ha & Hb & Hab). destruct (HWm a b Hab) as (x' & y' & Hx' & Hy' & Hrel).
    apply Rtrans with x'; [apply HW; now exists a|]. apply Rtrans with y'; [exact Hrel|]. apply HW. now exists b. }
  assert (Hn1 : num_nodes p1 = n) by congruence.
  destruct (all_singletons p1 || (nmeta <? S nm) || qleb d thr) eqn:Estop.
  - apply IH; try assumption. discriminate.
  - apply orb_false_iff in Estop. destruct Estop as [Estop _]. apply orb_false_iff in Estop. destruct Estop as [Es _].
    destruct (sp_aggregate_spec n PT p0 sym A HU p1 Hpos Hv1 Hn1 Hne1 Es) as (PT' & p' & B & EB & HB & HTB). rewrite EB.
    apply IH; try assumption. intros _. split; [reflexivity|]. exists PT', p'. split; [exact HB|].
    assert (Hk0 : 0 < length (cluster_list p1)).
    { destruct (cluster_list p1) as [|c l] eqn:Ecl; [|cbn [length]; lia]. exfalso. destruct Hv1 as [(_ & _ & Hc) _]. rewrite Ecl in Hc. rewrite Hn1 in Hc.
      destruct (proj1 (Hc 0) Hpos) as (i & c & Hi & _). now destruct i. }
    split; [now apply (HTB 0 0)|]. intros a b Ha Hb L. rewrite (proj1 (proj2 (HTB a b Ha Hb))) in L.
    destruct HU as (_ & _ & _ & HP0 & _).
    destruct (MultiProofs.aggregate_positive n (value PT) p1 a b Hv1 Hn1 HP0) as (x & y & Hx & Hy & Rx & Ry & Lxy); [intros Z; rewrite Z in L; revert L; qlra|].
    exists x, y. split; [exact Hx|]. split; [exact Hy|]. now apply RT.
Qed.
End Levels.

Lemma sp_find_within setord orders n PT p sym A thr nmeta nsub q k (R : nat -> nat -> Prop) : is_iteration_order setord -> shuffles orders -> 0 < n ->
  usable n PT p sym A -> positive_entries PT -> is_all_zeros A = false ->
  (forall x, R x x) -> (forall x y, R x y -> R y x) -> (forall x y z, R x y -> R y z -> R x z) ->
  (forall x y, x < n -> y < n -> (0 < value PT x y)%num -> R x y) ->
  sp_find_louvain setord orders A thr nmeta nsub (part_default n) = LDone q k -> forall x y, together q x y -> R x y.
Proof.
  intros Hso Hsh Hn HU Hpe HZ Rr Rs Rt HR HF. unfold sp_find_louvain in HF. rewrite HZ in HF.
  rewrite (ac_copy_id n PT p sym A (proj1 HU)) in HF. change (num_nodes (part_default n)) with n in HF. rewrite part_of_list_default in HF.
  assert (H := sp_meta_loop_within setord orders n PT p sym A thr nmeta nsub Hso Hsh HU Hpe R Rs Rt HR (S (S nmeta)) (part_default n) A (part_default n) 1%num 0 false (default_valid n) (default_no_empty n) eq_refl Hn).
  rewrite HF in H. apply H.
  - intros x y Hxy. rewrite (MultiProofs.default_together n x y Hxy). apply Rr.
  - intros _. rewrite default_length. split; [reflexivity|]. exists PT, p. split; [exact HU|]. split; [exact Hpe|]. intros a b Ha Hb L.
    assert (HI : forall x, x < n -> in_cluster (cluster_list (part_default n)) x x).
    { intros x Hx. exists [x]. split; [|now left]. rewrite default_clusters, nth_error_map, (nth_error_nth' _ 0) by now rewrite seq_length. now rewrite seq_nth. }
    exists a, b. split; [now apply HI|]. split; [now apply HI|]. now apply HR.
Qed.

(** ** Flows *)
Lemma sum_some m (f : nat -> num) : sumN m f <> 0%num -> exists k, k < m /\ f k <> 0%num.
Proof.
  induction m as [|m IH]; [intros H; now contradiction H|]. rewrite sumN_S. intros H. destruct (qeqb_spec (f m) 0%num) as [E|E].
  - destruct IH as (k & Hk & Hf); [rewrite E in H; intros Z; apply H; rewrite Z; ring|]. exists k. split; [lia|exact Hf].
  - exists m. split; [lia|exact E].
Qed.
Lemma average_meet n d T ts m i j : distribution n d -> (forall k, k < m -> stochastic n (T k)) -> monotone ts -> 0 < m -> m < length ts ->
  i < n -> j < n -> (0 < time_average n d T ts m i j + d i * d j)%num -> can_meet n T m i j.
Proof.
  intros Hd HT Ht H0 Hm Hi Hj H.
  assert (E : (time_average n d T ts m i j + d i * d j = sumN m (fun k => gap ts k * sumN n (cov_term n d (T k) i j)) / sumN m (gap ts))%num).
  { unfold time_average. rewrite <- (gap_sum ts m Ht Hm). assert (HG := gap_sum_pos ts m Ht H0 Hm). assert (HG' := qneq_pos _ HG).
    rewrite (sumN_ext m (fun k => gap ts k * flow_cov n d (T k) i j)%num (fun k => gap ts k * sumN n (cov_term n d (T k) i j) - gap ts k * (d i * d j))%num).
    2:{ intros k _. unfold flow_cov. change (fun k0 => if qeqb (at_end n d (T k) k0) 0 then 0%num else _) with (cov_term n d (T k) i j). ring. }
    rewrite sumN_sub, sumN_scal_r. change (fun i0 => gap ts i0) with (gap ts). field. exact HG'. }
  rewrite E in H. destruct (sum_some m (fun k => (gap ts k * sumN n (cov_term n d (T k) i j))%num)) as (k & Hk & Hf).
  { intros Z. rewrite Z in H. revert H. unfold Qcdiv. qlra. }
  destruct (sum_some n (cov_term n d (T k) i j)) as (c & Hc & Hg); [intros Z; apply Hf; rewrite Z; ring|].
  unfold cov_term in Hg. destruct (qeqb_spec (at_end n d (T k) c) 0%num) as [Z|Z]; [congruence|].
  split; [exact Hi|]. split; [exact Hj|]. exists k, c. split; [exact Hk|]. split; [exact Hc|].
  assert (P : forall x, x < n -> T k x c <> 0%num -> (0 < T k x c)%num).
  { intros x Hx Hnz. destruct (HT k Hk) as [HN _]. destruct (qle_lt_or_eq _ _ (HN x c Hx Hc)) as [L|L]; [exact L|congruence]. }
  split; (apply P; [assumption|]; intros W; apply Hg; rewrite W; field; exact Z).
Qed.

(** ** The exit for zero matrices *)
(** two distributions of 1/n over fewer than ten thousand nodes, nowhere much above 1/n^2, have a node in common *)
Lemma shared_node n (f g : nat -> num) : 0 < n -> (Z.of_nat n < 10000)%Z -> (forall c, c < n -> (0 <= f c /\ 0 <= g c)%num) ->
  (forall c, c < n -> (f c <= 1 / qn n * (1 / qn n) + (qf 1 100000000 + qf 1 100000 * (1 / qn n * (1 / qn n))))%num) ->
  (forall c, c < n -> (g c <= 1 / qn n * (1 / qn n) + (qf 1 100000000 + qf 1 100000 * (1 / qn n * (1 / qn n))))%num) ->
  sumN n f = (1 / qn n)%num -> sumN n g = (1 / qn n)%num -> exists c, c < n /\ (0 < f c)%num /\ (0 < g c)%num.
Proof.
  intros H0 Hn Hp Hf Hg Sf Sg. set (b := (1 / qn n * (1 / qn n) + (qf 1 100000000 + qf 1 100000 * (1 / qn n * (1 / qn n))))%num) in *.
  destruct (existsb (fun c => qltb 0%num (f c) && qltb 0%num (g c)) (seq 0 n)) eqn:E.
  - apply existsb_exists in E. destruct E as (c & Hc & E). apply seq_In_iff in Hc. apply andb_true_iff in E. destruct E as [E1 E2].
    exists c. split; [exact Hc|]. split; [destruct (qltb_spec 0%num (f c)); [assumption|discriminate]|destruct (qltb_spec 0%num (g c)); [assumption|discriminate]].
  - exfalso. assert (Hb : forall c, c < n -> (f c + g c <= b)%num).
    { intros c Hc. destruct (Hp c Hc) as [P1 P2]. specialize (Hf c Hc). specialize (Hg c Hc).
      destruct (qltb_spec 0%num (f c)) as [L1|L1]; [|apply Qcnot_lt_le in L1; revert L1 P1 Hg; generalize (f c) (g c) b; clear; qlra].
      destruct (qltb_spec 0%num (g c)) as [L2|L2]; [|apply Qcnot_lt_le in L2; revert L2 P2 Hf; generalize (f c) (g c) b; clear; qlra].
      exfalso. assert (X : existsb (fun c => qltb 0%num (f c) && qltb 0%num (g c)) (seq 0 n) = true); [|congruence].
      apply existsb_exists. exists c. split; [now apply seq_In_iff|]. destruct (qltb_spec 0%num (f c)); [|contradiction]. destruct (qltb_spec 0%num (g c)); [reflexivity|contradiction]. }
    assert (HS : (sumN n (fun c => f c + g c) <= sumN n (fun _ => b))%num).
    { apply sumL_le. intros c Hc. apply seq_In_iff in Hc. now apply Hb. }
    rewrite sumN_add in HS. change (fun k => f k) with f in HS. change (fun k => g k) with g in HS. rewrite Sf, Sg in HS.
    assert (EB : sumN n (fun _ => b) = (qn n * b)%num) by (unfold sumN; rewrite sumL_const, seq_length; reflexivity). rewrite EB in HS.
    assert (N0 : (0 < qn n)%num) by (apply Qclt_le_trans with (qn 1); [reflexivity|now apply qn_le]). assert (N1 := qneq_pos _ N0).
    assert (N2 : (qn n <= qz 9999)%num). { unfold qn, qz, Qcle, Q2Qc. cbn [this]. rewrite !Qred_correct. unfold inject_Z, Qle. cbn [Qnum Qden]. lia. }
    assert (N3 : (0 <= qn n * (qn n * b - (1 / qn n + 1 / qn n)))%num) by (apply qmult_nonneg; [now apply Qclt_le_weak|revert HS; generalize (qn n * b)%num (1 / qn n)%num; clear; qlra]).
    assert (N4 : (qn n * (qn n * b - (1 / qn n + 1 / qn n)) = qf 1 100000 + qf 1 100000000 * (qn n * qn n) - 1)%num).
    { unfold b. field. exact N1. }
    rewrite N4 in N3. assert (N5 : (qn n * qn n <= qz 9999 * qz 9999)%num).
    { apply Qcle_trans with (qn n * qz 9999)%num; [rewrite (Qcmult_comm (qn n) (qz 9999)); apply Qcmult_le_compat_r; [exact N2|now apply Qclt_le_weak]|].
      apply Qcmult_le_compat_r; [exact N2|discriminate]. }
    revert N3 N5. generalize (qn n * qn n)%num. clear. intros x. replace (qz 9999 * qz 9999)%num with (qf 99980001 1) by now apply Qc_is_canon. unfold qf. qlra.
Qed.
Lemma rst_incl (A : Type) (R S : A -> A -> Prop) : (forall x y, R x y -> clos_refl_sym_trans A S x y) -> forall x y, clos_refl_sym_trans A R x y -> clos_refl_sym_trans A S x y.
Proof.
  intros H x y C. induction C as [x y C|x|x y C IH|x y z C1 I1 C2 I2]; [now apply H|apply rst_refl|now apply rst_sym|now apply rst_trans with y].
Qed.
(** what the search puts together, for the integral of a flow *)
Lemma held_together setord orders n d M PT p A thr nmeta nsub q k (R : nat -> nat -> Prop) : is_iteration_order setord -> shuffles orders -> 0 < n ->
  holds n d M PT p A -> zero_rows n M -> is_all_zeros A = false \/ ((Z.of_nat n < 10000)%Z /\ forall i, d i = (1 / qn n)%num) ->
  (forall i j, i < n -> j < n -> (0 < M i j + d i * d j)%num -> R i j) ->
  sp_find_louvain setord orders A thr nmeta nsub (part_default n) = LDone q k -> forall x y, together q x y -> clos_refl_sym_trans nat R x y.
Proof.
  intros Hso Hsh Hn (HU & Hpe & Hd & HM) Hz Hcase HR HF.
  assert (HV : forall i j, i < n -> j < n -> value PT i j = (M i j + d i * d j)%num).
  { intros i j Hi Hj. rewrite <- (HM i j Hi Hj), (built_toarray n PT p true A i j (proj1 HU) Hi Hj), (Hd i j Hi Hj). ring. }
  assert (HRv : forall x y, x < n -> y < n -> (0 < value PT x y)%num -> clos_refl_sym_trans nat R x y).
  { intros x y Hx Hy H. rewrite HV in H by assumption. apply rst_step. now apply HR. }
  destruct (is_all_zeros A) eqn:EZ.
  - destruct Hcase as [|[Hlt Hu]]; [discriminate|]. unfold sp_find_louvain in HF. rewrite EZ in HF. change (num_nodes (part_default n)) with n in HF.
    assert (HF' : full_partition n = q) by congruence. subst q. intros x y (i & Hxi & Hyi). rewrite (full_partition_clusters n Hn) in Hxi, Hyi.
    destruct i as [|i]; [|destruct Hxi as (c & Hc & _); destruct i; discriminate Hc].
    destruct Hxi as (c & Hc & Hx), Hyi as (c' & Hc' & Hy). injection Hc as <-. injection Hc' as <-. apply seq_In_iff in Hx, Hy.
    assert (Hp0 : forall i j, i < n -> j < n -> (0 <= p0_at p i j)%num).
    { intros i j Hi Hj. rewrite (Hd i j Hi Hj), !Hu. apply qmult_nonneg; (apply qdiv_nonneg; [discriminate|]; apply Qclt_le_trans with (qn 1); [reflexivity|now apply qn_le]). }
    assert (Hs0 : forall i, i < n -> sumN n (toarray A i) = 0%num) by (intros i Hi; rewrite (sumN_ext n (toarray A i) (M i)) by (intros j Hj; now apply HM); now apply Hz).
    assert (HB : forall i j, i < n -> j < n -> (value PT i j <= 1 / qn n * (1 / qn n) + (qf 1 100000000 + qf 1 100000 * (1 / qn n * (1 / qn n))))%num).
    { intros i j Hi Hj. destruct (zeros_bound n PT p true A i j (proj1 HU) (proj1 (proj2 HU)) Hp0 Hs0 EZ Hi Hj) as [HB _].
      rewrite (built_toarray n PT p true A i j (proj1 HU) Hi Hj), (Hd i j Hi Hj), !Hu in HB. revert HB. generalize (value PT i j) (1 / qn n * (1 / qn n))%num. clear. unfold qf. qlra. }
    assert (HS1 : forall i, i < n -> sumN n (value PT i) = (1 / qn n)%num).
    { intros i Hi. rewrite (sumN_ext n (value PT i) (fun j => M i j + 1 / qn n * (1 / qn n))%num) by (intros j Hj; rewrite HV by assumption; now rewrite !Hu).
      rewrite sumN_add. change (fun k0 => M i k0) with (M i). rewrite (Hz i Hi). unfold sumN. rewrite sumL_const, seq_length. field.
      apply qneq_pos, Qclt_le_trans with (qn 1); [reflexivity|now apply qn_le]. }
    destruct (shared_node n (value PT x) (value PT y) Hn Hlt) as (c & Hc & L1 & L2); auto; [intros c Hc; destruct HU as (_ & _ & _ & HU0 & _); split; now apply HU0|].
    apply rst_trans with c; [now apply HRv|]. apply rst_sym. now apply HRv.
  - intros x y Hxy. apply (sp_find_within setord orders n PT p true A thr nmeta nsub q k (clos_refl_sym_trans nat R)); try assumption; [apply rst_refl|apply rst_sym|apply rst_trans].
Qed.

(** ** Dense matrices *)
Lemma meet_connected n T m x y : can_meet n T m x y -> flow_connects n T m x y.
Proof.
  intros (Hx & Hy & k & c & Hk & Hc & L1 & L2). apply rst_trans with c; [|apply rst_sym]; apply rst_step; repeat split; try assumption; now exists k.
Qed.
Lemma uniform_zero_meets n (M : mat) : 0 < n -> S_is_zero n M = true -> forall i j, i < n -> j < n -> (0 < M i j + 1 / qn n * (1 / qn n))%num.
Proof.
  intros Hn HZ i j Hi Hj. rewrite S_is_zero_spec in HZ. specialize (HZ i j Hi Hj). apply qabs_bounds in HZ. destruct HZ as [HZ _].
  assert (N0 : (0 < qn n)%num) by (apply Qclt_le_trans with (qn 1); [reflexivity|now apply qn_le]).
  assert (U : (0 < 1 / qn n * (1 / qn n))%num) by (apply qmult_pos; apply qdiv_pos; try reflexivity; exact N0).
  replace (qf 1 1000000 / qn (n * n))%num with (qf 1 1000000 * (1 / qn n * (1 / qn n)))%num in HZ by (rewrite qn_mult; field; now apply qneq_pos).
  revert HZ U. generalize (1 / qn n * (1 / qn n))%num (M i j). clear. unfold qf. qlra.
Qed.

(** ** Networks *)
Lemma laplacians_join N g : rows N <> [] -> ids_ok N = true -> no_self_contact (rows N) -> own_index (rows N) -> is_time_grid (rows N) g ->
  forall Ls, compute_laplacians N g None None = Some (0, length (times (rows N)) - 1, Ls) ->
  forall k i j, k < length (times (rows N)) - 1 -> i < num_nodes_of N -> j < num_nodes_of N -> nth k Ls ident i j <> 0%num -> acquainted (rows N) i j.
Proof.
  intros Hne Hids Hself HO HG Ls HLs k i j Hk Hi Hj Hnz.
  set (P := fun (_ : num) (on : graph) => forall i j, on i j = true -> exists e, In e (map snd (rows N)) /\ joins e i j).
  destruct (laplacians_gen N g None None P P) as (ka & kb & Ls' & E & _ & _ & Sa & Sb & HL & HK); try assumption.
  - intros u on Hon a b H. destruct (on_rows_last (rows N) (group g u) a b (group_rows_ok _ g u HG HO) on) as [[H1 _] | (rs1 & r & e & rs2 & _ & R1 & R2 & _)].
    + apply Hon. congruence.
    + exists e. split; [|exact R2]. apply row_by_id_some in R1. apply in_map_iff. now exists (g_id r, e).
  - intros u v on _ H. exact H.
  - intros ka on _ Hon a b H. apply Hon in H. destruct ka as [|k0]; [contradiction|]. destruct H as (e & He & HJ & _). now exists e.
  - rewrite E in HLs. assert (EL : Ls' = Ls /\ ka = 0 /\ kb = length (times (rows N)) - 1) by (split; [congruence|split; congruence]). destruct EL as (-> & -> & ->).
    destruct (HK k ltac:(lia)) as (on & s & HW & HP & HE). rewrite (nth_indep Ls ident (fun _ _ => 0%num)) in Hnz by lia. rewrite HE, (laplacian_walk _ on s HW i j Hi Hj) in Hnz.
    destruct (Nat.eqb_spec i j) as [->|Hij]; [apply rst_refl|]. apply rst_step. apply HP. destruct (on i j) eqn:Eon; [reflexivity|]. exfalso. apply Hnz.
    unfold walk. rewrite (proj2 (Nat.eqb_neq i j) Hij), Eon. destruct (degree (num_nodes_of N) on i); ring.
Qed.
Lemma linked_within n (L : mat) (R : nat -> nat -> Prop) : (forall x, R x x) -> (forall x y, R x y -> R y x) -> (forall x y z, R x y -> R y z -> R x z) ->
  (forall i j, i < n -> j < n -> L i j <> 0%num -> R i j) -> forall i j, TransSpec.linked n (fun a b => L a b <> 0%num) i j -> j < n /\ R i j.
Proof.
  intros Rr Rs Rt HL i j H. induction H as [i Hi|i j k H [Hj IH] Hk Hjk]; [split; [exact Hi|apply Rr]|]. split; [exact Hk|]. apply Rt with j; [exact IH|].
  destruct Hjk as [Hjk|Hjk]; [now apply HL|apply Rs; now apply HL].
Qed.
Lemma chain_within n l (R : nat -> nat -> Prop) : (forall x, R x x) -> (forall x y z, R x y -> R y z -> R x z) ->
  (forall A, In A l -> forall i j, i < n -> j < n -> A i j <> 0%num -> R i j) -> forall i j, i < n -> j < n -> chain n l i j <> 0%num -> R i j.
Proof.
  intros Rr Rt. induction l as [|A l IH]; intros H i j Hi Hj Hnz.
  - cbn in Hnz. unfold ident in Hnz. destruct (Nat.eqb_spec i j) as [->|]; [apply Rr|congruence].
  - cbn [chain fold_right] in Hnz. unfold mmul in Hnz at 1. destruct (sum_some n _ Hnz) as (c & Hc & Hf). apply Rt with c.
    + apply (H A); try assumption; [now left|]. intros Z. apply Hf. rewrite Z. ring.
    + apply IH; try assumption; [intros B HB; apply H; now right|]. intros Z. apply Hf. unfold chain in Z. rewrite Z. ring.
Qed.
