(** Searches stay within connected components, and depend only on the entries of the matrices. *)
From Verif Require Import Base PartitionModel PartitionSpec PartitionProofs LouvainModel LouvainSpec LouvainProofs EventsModel TransModel TransSpec MatProofs StaticModel MultiModel MultiSpec.

(** * Clusters within classes of a relation *)
Definition within (R : nat -> nat -> Prop) (p : partition) : Prop := forall x y, together p x y -> R x y.

Section Within.
Context (setord : list nat -> list nat) (M : mat).
Hypothesis Hso : is_iteration_order setord.
Context (R : nat -> nat -> Prop).
Hypothesis Rsym : forall x y, R x y -> R y x.
Hypothesis Rtrans : forall x y z, R x y -> R y z -> R x z.

Lemma visit_within neighs p node p' g : valid p -> neighs_in_range (num_nodes p) neighs ->
  (forall y, In y (neighs node) -> R node y) -> within R p -> visit setord M neighs p node = Some (p', g) -> within R p'.
Proof.
  intros Hv Hr HN HW. unfold visit. destruct (dget (n2c p) node) as [ci|] eqn:Hci; [|discriminate].
  assert (Hn : node < num_nodes p) by (eapply valid_dget_node; eauto).
  destruct (moveout_some M p node ci Hv Hci) as [ro Hro]. rewrite Hro.
  destruct (potential_spec setord neighs p node ci Hso Hv Hr Hci) as (comms & Hcm & Hcomms). rewrite Hcm.
  destruct (best_move_spec M p node ci ro comms Hv Hci) as (db & cb & Hb & _ & Hcase & _).
  { intros c Hc. destruct (Hcomms c Hc) as [H1 [H2 _]]. auto. }
  rewrite Hb. destruct (Nat.eqb_spec cb ci) as [->|Hne].
  - intros E. now injection E as <- <-.
  - destruct Hcase as [[? _]|[Hin _]]; [contradiction|]. destruct (Hcomms cb Hin) as (_ & Hlt & y & Hy & Hdy).
    destruct (move_node_spec p node cb Hv Hn Hlt) as (p1 & Hm & _ & _ & HI & _). rewrite Hm. intros E. injection E as <- <-.
    assert (Hnn : R node node). { apply HW. exists ci. split; now apply Hv. }
    assert (Hcl : forall z, in_cluster (cluster_list p) cb z -> R node z).
    { intros z Hz. apply Rtrans with y; [now apply HN|]. apply HW. exists cb. split; [now apply Hv|exact Hz]. }
    intros x z (i & Hx & Hz). apply HI in Hx, Hz.
    destruct Hx as [[-> ->]|[Hxn Hx]], Hz as [[-> Ei]|[Hzn Hz]].
    + exact Hnn.
    + now apply Hcl.
    + subst i. apply Rsym. now apply Hcl.
    + apply HW. now exists i.
Qed.
Lemma sweep_within neighs order p p' d : valid p -> neighs_in_range (num_nodes p) neighs -> order_in_range (num_nodes p) order ->
  (forall x y, x < num_nodes p -> In y (neighs x) -> R x y) -> within R p -> sweep setord M neighs order p = Some (p', d) -> within R p'.
Proof.
  intros Hv Hr Ho HN HW. unfold sweep. set (n := num_nodes p) in *. assert (Hn : num_nodes p = n) by reflexivity. clearbody n.
  generalize 0%num. revert p Hv Hn HW. induction order as [|x l IH]; intros p Hv Hn HW d0; cbn [fold_left].
  - intros E. now injection E as <- <-.
  - destruct (visit_spec setord M neighs p x Hso Hv) as (q & g & Hvis & Hq & Hnq & _); [now rewrite Hn|rewrite Hn; apply Ho; now left|].
    rewrite Hvis. apply IH; [intros y Hy; apply Ho; now right|exact Hq|congruence|].
    refine (visit_within neighs p x q g Hv _ _ HW Hvis); [now rewrite Hn|]. intros y Hy. apply HN; [apply Ho; now left|exact Hy].
Qed.
Lemma remove_empty_within p : within R p -> within R (remove_empty_clusters p).
Proof.
  intros HW x y (i & (c & Hc & Hx) & (c' & Hc' & Hy)). rewrite Hc in Hc'. injection Hc' as <-. cbn in Hc. apply nth_error_In in Hc. apply filter_In in Hc.
  destruct Hc as [Hc _]. apply In_nth_error in Hc. destruct Hc as (j & Hj). apply HW. exists j. split; now exists c.
Qed.
Lemma sweeps_within neighs orders thr nmax : forall fuel p dl dt nl p' d n', valid p -> neighs_in_range (num_nodes p) neighs ->
  (forall k, order_in_range (num_nodes p) (orders k)) -> (forall x y, x < num_nodes p -> In y (neighs x) -> R x y) -> within R p ->
  sweeps fuel setord M neighs orders thr nmax p dl dt nl = MDone p' d n' -> within R p'.
Proof.
  induction fuel as [|fuel IH]; intros p dl dt nl p' d n' Hv Hr Ho HN HW; cbn [sweeps]; destruct (qltb thr dl && (nl <? nmax)).
  - discriminate.
  - intros E. injection E as <- <- <-. now apply remove_empty_within.
  - destruct (sweep_spec setord M neighs (orders nl) p Hso Hv Hr (Ho nl)) as (p1 & d1 & Hs & Hv1 & Hn1 & _). rewrite Hs.
    apply IH; try rewrite Hn1; try assumption. eapply sweep_within; [exact Hv|exact Hr|exact (Ho nl)|exact HN|exact HW|exact Hs].
  - intros E. injection E as <- <- <-. now apply remove_empty_within.
Qed.
End Within.

(** * The levels *)
Lemma aggregate_positive n T p a b : valid p -> num_nodes p = n -> (forall i j, i < n -> j < n -> (0 <= T i j)%num) ->
  aggregate T p a b <> 0%num -> exists x y, in_cluster (cluster_list p) a x /\ in_cluster (cluster_list p) b y /\ x < n /\ y < n /\ (0 < T x y)%num.
Proof.
  intros Hv Hn HT H. unfold aggregate, block in H.
  assert (Hr : forall c x, In x (nth c (cluster_list p) []) -> in_cluster (cluster_list p) c x /\ x < n).
  { intros c x Hx. assert (HI : in_cluster (cluster_list p) c x) by now apply In_nth_in_cluster. split; [exact HI|]. rewrite <- Hn. apply Hv. now exists c. }
  destruct (existsb (fun i => existsb (fun j => qltb 0%num (T i j)) (nth b (cluster_list p) [])) (nth a (cluster_list p) [])) eqn:E.
  - apply existsb_exists in E. destruct E as (x & Hx & E). apply existsb_exists in E. destruct E as (y & Hy & E). destruct (qltb_spec 0%num (T x y)) as [L|]; [|discriminate].
    exists x, y. destruct (Hr a x Hx), (Hr b y Hy). auto.
  - exfalso. apply H. apply sumL_zero. intros i Hi. apply sumL_zero. intros j Hj. destruct (Hr a i Hi) as [_ Ri], (Hr b j Hj) as [_ Rj].
    destruct (qle_lt_or_eq _ _ (HT i j Ri Rj)) as [L|L]; [|now symmetry]. exfalso.
    assert (E' : existsb (fun i => existsb (fun j => qltb 0%num (T i j)) (nth b (cluster_list p) [])) (nth a (cluster_list p) []) = true).
    { apply existsb_exists. exists i. split; [exact Hi|]. apply existsb_exists. exists j. split; [exact Hj|]. destruct (qltb_spec 0%num (T i j)); [reflexivity|contradiction]. }
    congruence.
Qed.

Section Levels.
Context (setord : list nat -> list nat) (orders : nat -> nat -> nat -> list nat) (n : nat) (T S0 : mat) (thr : num) (nmeta nsub : nat).
Hypothesis Hso : is_iteration_order setord.
Hypothesis Hsh : shuffles orders.
Hypothesis HT : forall i j, i < n -> j < n -> (0 <= T i j)%num.
Context (R : nat -> nat -> Prop).
Hypothesis Rsym : forall x y, R x y -> R y x.
Hypothesis Rtrans : forall x y z, R x y -> R y z -> R x z.
Hypothesis RT : forall x y, x < n -> y < n -> (0 < T x y)%num -> R x y.

(** clusters with related members *)
Definition lifted (p : partition) (a b : nat) : Prop := exists x y, in_cluster (cluster_list p) a x /\ in_cluster (cluster_list p) b y /\ R x y.
Lemma lifted_sym p a b : lifted p a b -> lifted p b a.
Proof. intros (x & y & Hx & Hy & H). exists y, x. auto. Qed.
Lemma lifted_trans p a b c : within R p -> lifted p a b -> lifted p b c -> lifted p a c.
Proof.
  intros HW (x & y & Hx & Hy & H) (y' & z & Hy' & Hz & H'). exists x, z. split; [exact Hx|]. split; [exact Hz|].
  apply Rtrans with y; [exact H|]. apply Rtrans with y'; [|exact H']. apply HW. now exists b.
Qed.
Lemma default_lifted p : valid p -> no_empty (cluster_list p) -> within R p -> within (lifted p) (part_default (length (cluster_list p))).
Proof.
  intros Hv Hne HW a b (i & Ha & Hb).
  assert (E : forall x, in_cluster (cluster_list (part_default (length (cluster_list p)))) i x -> x = i /\ i < length (cluster_list p)).
  { intros x (c & Hc & Hx). rewrite default_clusters in Hc. assert (Hl := nth_error_Some (map (fun x => [x]) (seq 0 (length (cluster_list p)))) i).
    rewrite map_length, seq_length in Hl. assert (Hi : i < length (cluster_list p)) by (apply Hl; congruence).
    rewrite nth_error_map in Hc. rewrite (nth_error_nth' _ 0) in Hc by (now rewrite seq_length). rewrite seq_nth in Hc by exact Hi. cbn in Hc. injection Hc as <-. destruct Hx as [<-|[]]. auto. }
  destruct (E a Ha) as [-> Hi]. destruct (E b Hb) as [-> _].
  destruct (nth_error (cluster_list p) i) as [c|] eqn:Ec; [|apply nth_error_None in Ec; lia].
  assert (Hc : c <> []) by (eapply Forall_forall in Hne; [exact Hne|]; eapply nth_error_In; exact Ec).
  destruct c as [|x c]; [contradiction|]. assert (Hx : in_cluster (cluster_list p) i x) by (exists (x :: c); split; [exact Ec|now left]).
  exists x, x. split; [exact Hx|]. split; [exact Hx|]. apply HW. now exists i.
Qed.

Lemma meta_loop_within : forall fuel p mT mS mp delta nm stop,
  valid p -> no_empty (cluster_list p) -> num_nodes p = n -> 0 < n -> within R p ->
  (stop = false -> mp = part_default (length (cluster_list p)) /\
     forall a b, a < length (cluster_list p) -> b < length (cluster_list p) -> (0 < mT a b)%num -> lifted p a b) ->
  match meta_loop fuel setord orders T S0 thr nmeta nsub p mT mS mp delta nm stop with
  | LDone q _ | LRaised q => within R q
  | LFuel => True
  end.
Proof.
  induction fuel as [|fuel IH]; intros p mT mS mp delta nm stop Hv Hne Hn Hpos HW Hmeta; cbn [meta_loop];
    (destruct (negb (qleb delta thr || stop || (nmeta <? nm))) eqn:E; [|exact HW]); [exact I|].
  apply negb_true_iff in E. apply orb_false_iff in E. destruct E as [E _]. apply orb_false_iff in E. destruct E as [_ E2].
  destruct (Hmeta E2) as [-> HmT]. set (k := length (cluster_list p)) in *.
  assert (Hvk : valid (part_default k)) by apply default_valid.
  destruct (move_phase_spec setord mS (neighs_of k mT) (fun q => orders (S nm) q k) thr nsub (part_default k) Hso Hvk (neighs_of_range k mT)
     (fun q => shuffles_in_range orders (S nm) k Hsh q)) as (mp' & d & n' & Hmv & Hvm & Hnm & Hnem & _).
  change (num_nodes (part_default k)) with k. rewrite Hmv.
  assert (HWm : within (lifted p) mp').
  { unfold louvain_move_nodes in Hmv. refine (sweeps_within setord mS Hso (lifted p) (lifted_sym p) (fun a b c => lifted_trans p a b c HW) (neighs_of k mT) (fun q => orders (S nm) q k) thr nsub nsub (part_default k) 1%num 0%num 1 mp' d n' Hvk _ _ _ _ Hmv).
    - apply neighs_of_range.
    - intros q. now apply shuffles_in_range.
    - intros x y Hx Hy. unfold neighs_of in Hy. apply filter_In in Hy. destruct Hy as [Hy E]. apply seq_In_iff in Hy. change (num_nodes (part_default k)) with k in Hx.
      apply orb_true_iff in E. destruct E as [E|E].
      + destruct (qltb_spec 0%num (mT x y)) as [L|]; [|discriminate]. now apply HmT.
      + destruct (qltb_spec 0%num (mT y x)) as [L|]; [|discriminate]. apply lifted_sym. now apply HmT.
    - now apply default_lifted. }
  assert (Hp0 : 0 < num_nodes p) by lia.
  destruct (updated_stands_for p mp' Hv Hne Hvm Hnem) as (p1 & Hu & Hv1 & Hne1 & HN1 & Hst); [now rewrite Hnm|exact Hp0|]. rewrite Hu.
  assert (HW1 : within R p1).
  { intros x y Hxy. apply Hst in Hxy. destruct Hxy as (a & b & Ha & Hb & Hab). destruct (HWm a b Hab) as (x' & y' & Hx' & Hy' & Hr).
    apply Rtrans with x'; [apply HW; now exists a|]. apply Rtrans with y'; [exact Hr|]. apply HW. now exists b. }
  destruct (all_singletons p1 || (nmeta <? S nm) || qleb d thr).
  - apply IH; try assumption; [congruence|discriminate].
  - cbv zeta. destruct (rows_nonzero (length (cluster_list p1)) (aggregate T p1)); [|exact HW1].
    apply IH; try assumption; [congruence|]. intros _. split; [reflexivity|]. intros a b _ _ L.
    assert (Hagg : aggregate T p1 a b <> 0%num). { intros Z. unfold row_normalised in L. rewrite Z in L. unfold Qcdiv in L. rewrite Qcmult_0_l in L. revert L. qlra. }
    destruct (aggregate_positive n T p1 a b Hv1) as (x & y & Hx & Hy & Rx & Ry & Lxy); [congruence|exact HT|exact Hagg|].
    exists x, y. split; [exact Hx|]. split; [exact Hy|]. now apply RT.
Qed.
End Levels.

Lemma default_together n x y : together (part_default n) x y -> x = y.
Proof.
  intros (i & (c & Hc & Hx) & (c' & Hc' & Hy)). rewrite Hc in Hc'. injection Hc' as <-. rewrite default_clusters in Hc. apply nth_error_In in Hc. apply in_map_iff in Hc.
  destruct Hc as (z & <- & _). destruct Hx as [<-|[]]. destruct Hy as [<-|[]]. reflexivity.
Qed.
Lemma find_louvain_linked setord orders n T S0 thr nmeta nsub q k : is_iteration_order setord -> shuffles orders -> 0 < n ->
  (forall i j, i < n -> j < n -> (0 <= T i j)%num) -> S_is_zero n S0 = false ->
  find_louvain setord orders T S0 thr nmeta nsub (part_default n) = LDone q k ->
  forall x y, together q x y -> linked n T x y.
Proof.
  intros Hso Hsh Hn HT HZ HF. unfold find_louvain in HF. change (num_nodes (part_default n)) with n in HF.
  destruct (Nat.eqb_spec n 0) as [->|_]; [lia|]. rewrite HZ, part_of_list_default in HF.
  assert (H := meta_loop_within setord orders n T S0 thr nmeta nsub Hso Hsh HT (linked n T)).
  specialize (H (fun x y Hxy => rst_sym _ _ x y Hxy) (fun x y z A B => rst_trans _ _ x y z A B) (fun x y Hx Hy L => rst_step _ _ x y (conj Hx (conj Hy L)))).
  specialize (H (S (S nmeta)) (part_default n) T S0 (part_default n) 1%num 0 false (default_valid n) (default_no_empty n) eq_refl Hn).
  rewrite HF in H. apply H.
  - intros x y Hxy. rewrite (default_together n x y Hxy). apply rst_refl.
  - intros _. rewrite default_length. split; [reflexivity|]. intros a b Ha Hb L.
    assert (HI : forall x, x < n -> in_cluster (cluster_list (part_default n)) x x).
    { intros x Hx. exists [x]. split; [|now left]. rewrite default_clusters, nth_error_map, (nth_error_nth' _ 0) by now rewrite seq_length. now rewrite seq_nth. }
    exists a, b. split; [now apply HI|]. split; [now apply HI|]. apply rst_step. auto.
Qed.

(** * The search depends only on the entries of T and S *)
Lemma forallb_ext_in {A} (f g : A -> bool) l : (forall x, In x l -> f x = g x) -> forallb f l = forallb g l.
Proof. induction l as [|a l IH]; intros H; cbn [forallb]; [reflexivity|]. rewrite (H a (or_introl eq_refl)), IH; [reflexivity|]. intros x Hx. apply H. now right. Qed.
Section Ext.
Context (setord : list nat -> list nat).
Hypothesis Hso : is_iteration_order setord.
Lemma cluster_members p c : valid p -> forall x, In x (nth c (cluster_list p) []) -> x < num_nodes p.
Proof. intros Hv x Hx. apply Hv. exists c. now apply In_nth_in_cluster. Qed.
Lemma cluster_members_error p c ix : valid p -> nth_error (cluster_list p) c = Some ix -> forall x, In x ix -> x < num_nodes p.
Proof. intros Hv E x Hx. apply Hv. exists c. now exists ix. Qed.
Lemma sum_Sto_ext n M M' k ix : eqm n M M' -> k < n -> (forall x, In x ix -> x < n) -> sum_Sto M k ix = sum_Sto M' k ix.
Proof.
  intros E Hk Hx. rewrite !sum_Sto_eq. unfold row_sum, col_sum. rewrite (E k k Hk Hk). f_equal. f_equal; apply sumL_ext; intros j Hj; apply E; auto.
Qed.
Lemma sum_Sout_ext n M M' k ix : eqm n M M' -> k < n -> (forall x, In x ix -> x < n) -> sum_Sout M k ix = sum_Sout M' k ix.
Proof.
  intros E Hk Hx. rewrite !sum_Sout_eq. unfold row_sum, col_sum. rewrite (E k k Hk Hk). f_equal; [f_equal|]; apply sumL_ext; intros j Hj; apply E; auto.
Qed.
Lemma moveto_ext M M' p k c : valid p -> eqm (num_nodes p) M M' -> k < num_nodes p -> delta_moveto M p k c = delta_moveto M' p k c.
Proof.
  intros Hv E Hk. unfold delta_moveto. destruct (nth_error (cluster_list p) c) as [ix|] eqn:Ec; [|reflexivity]. destruct (memb k ix); [reflexivity|].
  f_equal. apply (sum_Sto_ext (num_nodes p)); auto. now apply (cluster_members_error p c).
Qed.
Lemma moveout_ext M M' p k c : valid p -> eqm (num_nodes p) M M' -> k < num_nodes p -> delta_moveout M p k c = delta_moveout M' p k c.
Proof.
  intros Hv E Hk. unfold delta_moveout. destruct (nth_error (cluster_list p) c) as [ix|] eqn:Ec; [|reflexivity]. destruct (memb k ix); [|reflexivity].
  f_equal. apply (sum_Sout_ext (num_nodes p)); auto. now apply (cluster_members_error p c).
Qed.
Lemma best_move_ext M M' p k ci r comms : valid p -> eqm (num_nodes p) M M' -> k < num_nodes p -> best_move M p k ci r comms = best_move M' p k ci r comms.
Proof.
  intros Hv E Hk. unfold best_move. generalize (Some (0%num, ci)). induction comms as [|c l IH]; intros acc; cbn [fold_left]; [reflexivity|].
  rewrite (moveto_ext M M' p k c Hv E Hk). apply IH.
Qed.
Lemma visit_ext M M' neighs neighs' p x : valid p -> eqm (num_nodes p) M M' -> x < num_nodes p -> neighs x = neighs' x ->
  visit setord M neighs p x = visit setord M' neighs' p x.
Proof.
  intros Hv E Hx HN. unfold visit, potential_new_clusters. destruct (dget (n2c p) x) as [ci|]; [|reflexivity].
  rewrite (moveout_ext M M' p x ci Hv E Hx), HN. destruct (delta_moveout M' p x ci) as [ro|]; [|reflexivity].
  destruct (fold_right _ _ _) as [comms|]; [|reflexivity]. now rewrite (best_move_ext M M' p x ci ro _ Hv E Hx).
Qed.
Lemma sweep_ext M M' neighs neighs' order p : valid p -> neighs_in_range (num_nodes p) neighs -> order_in_range (num_nodes p) order ->
  eqm (num_nodes p) M M' -> (forall x, x < num_nodes p -> neighs x = neighs' x) ->
  sweep setord M neighs order p = sweep setord M' neighs' order p.
Proof.
  intros Hv Hr Ho E HN. unfold sweep. set (n := num_nodes p) in *. assert (Hn : num_nodes p = n) by reflexivity. clearbody n.
  generalize 0%num. revert p Hv Hn. induction order as [|x l IH]; intros p Hv Hn d0; cbn [fold_left]; [reflexivity|].
  assert (Hx : x < n) by (apply Ho; now left).
  destruct (visit_spec setord M neighs p x Hso Hv) as (q & g & Hvis & Hq & Hnq & _); [now rewrite Hn|now rewrite Hn|].
  rewrite <- (visit_ext M M' neighs neighs' p x Hv) by (rewrite ?Hn; auto). rewrite Hvis. apply IH; [intros y Hy; apply Ho; now right|exact Hq|congruence].
Qed.
Lemma sweeps_ext M M' neighs neighs' orders thr nmax : forall fuel p dl dt nl, valid p -> neighs_in_range (num_nodes p) neighs ->
  (forall k, order_in_range (num_nodes p) (orders k)) -> eqm (num_nodes p) M M' -> (forall x, x < num_nodes p -> neighs x = neighs' x) ->
  sweeps fuel setord M neighs orders thr nmax p dl dt nl = sweeps fuel setord M' neighs' orders thr nmax p dl dt nl.
Proof.
  induction fuel as [|fuel IH]; intros p dl dt nl Hv Hr Ho E HN; cbn [sweeps]; destruct (qltb thr dl && (nl <? nmax)); try reflexivity.
  rewrite <- (sweep_ext M M' neighs neighs' (orders nl) p Hv Hr (Ho nl) E HN).
  destruct (sweep_spec setord M neighs (orders nl) p Hso Hv Hr (Ho nl)) as (p1 & d1 & Hs & Hv1 & Hn1 & _). rewrite Hs.
  apply IH; rewrite ?Hn1; assumption.
Qed.
Lemma neighs_of_ext n T T' x : eqm n T T' -> x < n -> neighs_of n T x = neighs_of n T' x.
Proof. intros E Hx. unfold neighs_of. apply filter_ext_in. intros y Hy. apply seq_In_iff in Hy. now rewrite (E x y Hx Hy), (E y x Hy Hx). Qed.
Lemma aggregate_ext M M' p a b : valid p -> eqm (num_nodes p) M M' -> aggregate M p a b = aggregate M' p a b.
Proof. intros Hv E. unfold aggregate. apply block_ext. intros i j Hi Hj. apply E; eapply cluster_members; eassumption. Qed.
Lemma rows_nonzero_ext n M M' : eqm n M M' -> rows_nonzero n M = rows_nonzero n M'.
Proof. intros E. unfold rows_nonzero. apply forallb_ext_in. intros i Hi. apply seq_In_iff in Hi. now rewrite (sumN_ext n (M i) (M' i)) by auto. Qed.
Lemma row_normalised_ext n M M' : eqm n M M' -> eqm n (row_normalised n M) (row_normalised n M').
Proof. intros E i j Hi Hj. unfold row_normalised. now rewrite (E i j Hi Hj), (sumN_ext n (M i) (M' i)) by auto. Qed.

Context (orders : nat -> nat -> nat -> list nat) (T T' S0 S0' : mat) (thr : num) (nmeta nsub : nat).
Hypothesis Hsh : shuffles orders.
Lemma meta_loop_ext : forall fuel p mT mT' mS mS' mp delta nm stop, valid p -> no_empty (cluster_list p) -> 0 < num_nodes p ->
  eqm (num_nodes p) T T' -> eqm (num_nodes p) S0 S0' -> (stop = false -> mp = part_default (length (cluster_list p)) /\ eqm (length (cluster_list p)) mT mT' /\ eqm (length (cluster_list p)) mS mS') ->
  meta_loop fuel setord orders T S0 thr nmeta nsub p mT mS mp delta nm stop = meta_loop fuel setord orders T' S0' thr nmeta nsub p mT' mS' mp delta nm stop.
Proof.
  induction fuel as [|fuel IH]; intros p mT mT' mS mS' mp delta nm stop Hv Hne Hn ET ES Hm; cbn [meta_loop];
    destruct (negb (qleb delta thr || stop || (nmeta <? nm))) eqn:E; try reflexivity.
  apply negb_true_iff in E. apply orb_false_iff in E. destruct E as [E _]. apply orb_false_iff in E. destruct E as [_ E2].
  destruct (Hm E2) as (-> & EmT & EmS). set (k := length (cluster_list p)) in *. change (num_nodes (part_default k)) with k.
  assert (Hvk : valid (part_default k)) by apply default_valid.
  assert (Ho : forall q, order_in_range k (orders (S nm) q k)) by (intros q; now apply shuffles_in_range).
  unfold louvain_move_nodes.
  rewrite <- (sweeps_ext mS mS' (neighs_of k mT) (neighs_of k mT') (fun q => orders (S nm) q k) thr nsub nsub (part_default k) _ _ _ Hvk (neighs_of_range k mT) Ho EmS (fun x Hx => neighs_of_ext k mT mT' x EmT Hx)).
  destruct (move_phase_spec setord mS (neighs_of k mT) (fun q => orders (S nm) q k) thr nsub (part_default k) Hso Hvk (neighs_of_range k mT) Ho) as (mp' & d & n' & Hmv & Hvm & Hnm & Hnem & _).
  unfold louvain_move_nodes in Hmv. rewrite Hmv.
  destruct (updated_stands_for p mp' Hv Hne Hvm Hnem) as (p1 & Hu & Hv1 & Hne1 & HN1 & _); [now rewrite Hnm|exact Hn|]. rewrite Hu.
  rewrite <- HN1 in ET, ES.
  assert (EA : eqm (length (cluster_list p1)) (aggregate T p1) (aggregate T' p1)) by (intros a b _ _; now apply aggregate_ext).
  assert (EB : eqm (length (cluster_list p1)) (aggregate S0 p1) (aggregate S0' p1)) by (intros a b _ _; now apply aggregate_ext).
  destruct (all_singletons p1 || (nmeta <? S nm) || qleb d thr).
  - apply IH; try assumption; [lia|discriminate].
  - cbv zeta. rewrite <- (rows_nonzero_ext _ _ _ EA). destruct (rows_nonzero (length (cluster_list p1)) (aggregate T p1)); [|reflexivity].
    apply IH; try assumption; [lia|]. intros _. split; [reflexivity|]. split; [now apply row_normalised_ext|exact EB].
Qed.
Lemma S_is_zero_ext n : eqm n S0 S0' -> S_is_zero n S0 = S_is_zero n S0'.
Proof.
  intros E. unfold S_is_zero. apply forallb_ext_in. intros i Hi. apply forallb_ext_in. intros j Hj. apply seq_In_iff in Hi, Hj. now rewrite (E i j Hi Hj).
Qed.
Lemma find_louvain_ext n : eqm n T T' -> eqm n S0 S0' ->
  find_louvain setord orders T S0 thr nmeta nsub (part_default n) = find_louvain setord orders T' S0' thr nmeta nsub (part_default n).
Proof.
  intros ET ES. unfold find_louvain. change (num_nodes (part_default n)) with n. destruct (Nat.eqb_spec n 0) as [->|Hn]; [reflexivity|].
  rewrite <- (S_is_zero_ext n ES). destruct (S_is_zero n S0); [reflexivity|]. rewrite part_of_list_default.
  apply meta_loop_ext; auto using default_valid, default_no_empty; [cbn; lia|]. intros _. rewrite default_length. auto.
Qed.
End Ext.

(** * Reading back a flattened matrix *)
Lemma flat_map_length_const {A} (f : nat -> list A) n m : (forall i, i < m -> length (f i) = n) -> length (flat_map f (seq 0 m)) = m * n.
Proof.
  induction m as [|m IH]; intros H; [reflexivity|]. rewrite seq_S, flat_map_app, app_length, IH by (intros; apply H; lia). cbn [flat_map]. rewrite app_nil_r, Nat.add_0_l, H by lia. lia.
Qed.
Lemma reshape_flat n M : eqm n (reshape n (flat n M)) M.
Proof.
  intros i j Hi Hj. unfold reshape, flat.
  assert (H : forall m, i < m -> nth (i * n + j) (flat_map (fun i => map (M i) (seq 0 n)) (seq 0 m)) 0%num = M i j).
  { intros m. assert (HL : forall m, length (flat_map (fun i => map (M i) (seq 0 n)) (seq 0 m)) = m * n) by (intros m'; apply flat_map_length_const; intros; now rewrite map_length, seq_length).
    induction m as [|m IH]; intros Him; [lia|]. rewrite seq_S, flat_map_app. cbn [flat_map]. rewrite app_nil_r, Nat.add_0_l.
    destruct (Nat.eq_dec i m) as [->|Hne].
    - rewrite app_nth2 by (rewrite HL; lia). rewrite HL. replace (m * n + j - m * n) with j by lia. now rewrite nth_map_seq_default.
    - rewrite app_nth1; [apply IH; lia|]. rewrite HL. nia. }
  now apply H.
Qed.
Lemma rows_ok_ext n T T' : eqm n T T' -> rows_ok n T = rows_ok n T'.
Proof. intros E. unfold rows_ok. apply forallb_ext_in. intros i Hi. apply seq_In_iff in Hi. now rewrite (sumN_ext n (T i) (T' i)) by auto. Qed.
Lemma compute_stability_ext n M M' q : valid q -> num_nodes q = n -> eqm n M M' -> compute_stability M q = compute_stability M' q.
Proof. intros Hv Hn E. apply stability_ext; [exact Hv|]. intros i j Hi Hj. apply E; congruence. Qed.
