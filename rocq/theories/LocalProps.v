(** C188: where the moving of single nodes stops ([Clustering._louvain_move_nodes], network_clustering.py l.1221-1331). *)
From Verif Require Import Base PartitionModel PartitionSpec PartitionProofs LouvainModel LouvainSpec LouvainProofs LouvainProps PartitionProps.

(** ** Vocabulary *)
(** q is p with x moved to the cluster of one of its neighbours *)
Definition step_of (neighs : nat -> list nat) (p : partition) (x : nat) (q : partition) : Prop :=
  exists y c, In y (neighs x) /\ ~ together p x y /\ in_cluster (cluster_list p) c y /\ move_node p x c = Done q.
Definition gain_of (M : mat) (p q : partition) : num := (stability M q - stability M p)%num.
(** no node gains more than thr by joining a neighbour *)
Definition local_optimum (M : mat) (neighs : nat -> list nat) (thr : num) (p : partition) : Prop :=
  forall x q, x < num_nodes p -> step_of neighs p x q -> (gain_of M p q <= thr)%num.

(** * One visit *)
Lemma potential_complete setord neighs p x comms y c : is_iteration_order setord -> potential_new_clusters setord neighs p x = Some comms ->
  In y (neighs x) -> dget (n2c p) y = Some c -> dget (n2c p) x <> Some c -> In c comms.
Proof.
  intros Hso. unfold potential_new_clusters. destruct (dget (n2c p) x) as [ci|]; [|discriminate].
  match goal with |- context [fold_right ?f ?a ?l] => destruct (fold_right f a l) as [s|] eqn:E; [|discriminate] end. intros [= <-] Hy Hc Hne.
  apply (Permutation_in _ (Permutation_sym (Hso (rem ci s)))). apply rem_In. split; [|congruence]. revert s E Hy. generalize (neighs x).
  induction l as [|z l IH]; intros s E Hy; [destruct Hy|]. cbn [fold_right] in E.
  destruct (fold_right _ _ l) as [s'|]; [|discriminate]. destruct (dget (n2c p) z) as [d|] eqn:Ez; [|discriminate]. injection E as <-. apply set_add_In.
  destruct Hy as [->|Hy]; [left; congruence|right; now apply IH].
Qed.
(** staying means that every candidate loses *)
Lemma best_move_stays M p x ci ro comms db : (forall c, In c comms -> c <> ci) -> best_move M p x ci ro comms = Some (db, ci) ->
  forall c ri, In c comms -> delta_moveto M p x c = Some ri -> (ro + ri < 0)%num.
Proof.
  unfold best_move. intros Hne.
  assert (H : forall l db0 cb0, (forall c, In c l -> c <> ci) -> fold_left (fun best c_f =>
        match best with
        | None => None
        | Some (db, cb) =>
            if Nat.eqb c_f ci then best
            else match delta_moveto M p x c_f with
                 | None => None
                 | Some r_in =>
                     let delta_r := (ro + r_in)%num in
                     if qleb db delta_r then Some (delta_r, c_f) else Some (db, cb)
                 end
        end) l (Some (db0, cb0)) = Some (db, ci) -> cb0 = ci /\ forall c ri, In c l -> delta_moveto M p x c = Some ri -> (ro + ri < db0)%num).
  { induction l as [|c l IH]; intros db0 cb0 Hl HF; cbn [fold_left] in HF.
    - injection HF as _ <-. split; [reflexivity|]. intros c ri [].
    - destruct (Nat.eqb_spec c ci) as [E|N]; [exfalso; exact (Hl c (or_introl eq_refl) E)|].
      assert (Hl' : forall c', In c' l -> c' <> ci) by (intros c' Hc'; apply Hl; now right).
      destruct (delta_moveto M p x c) as [r|] eqn:Er.
      + cbv zeta in HF. destruct (qleb_spec db0 (ro + r)%num) as [Hle|Hn].
        * destruct (IH _ _ Hl' HF) as [E _]. contradiction.
        * destruct (IH _ _ Hl' HF) as [-> Hall]. split; [reflexivity|]. intros c' ri [<-|Hc'] Hri; [|now apply (Hall c')].
          rewrite Er in Hri. assert (r = ri) as <- by congruence. now apply Qcnot_le_lt.
      + exfalso. clear - HF. induction l as [|a l IH]; cbn [fold_left] in HF; [discriminate|auto]. }
  intros HF. exact (proj2 (H comms 0%num ci Hne HF)).
Qed.
Lemma together_dget p x y ci c : valid p -> dget (n2c p) x = Some ci -> dget (n2c p) y = Some c -> ~ together p x y -> c <> ci.
Proof. intros Hv Hx Hy Hn ->. apply Hn. exists ci. split; now apply Hv. Qed.

(** a visit makes the best step, or leaves the node where it is when every step loses *)
Theorem C188_visit_best : forall setord M neighs p x, is_iteration_order setord -> valid p -> neighs_in_range (num_nodes p) neighs -> x < num_nodes p ->
  exists p' g, visit setord M neighs p x = Some (p', g) /\ g = gain_of M p p' /\
    (forall q, step_of neighs p x q -> (gain_of M p q <= g)%num) /\
    ((p' = p /\ forall q, step_of neighs p x q -> (gain_of M p q < 0)%num) \/ (step_of neighs p x p' /\ (0 <= g)%num)).
Proof.
  intros setord M neighs p x Hso Hv Hr Hx. unfold visit, gain_of.
  destruct (valid_node_dget p x Hv Hx) as [ci Hci]. rewrite Hci.
  destruct (moveout_some M p x ci Hv Hci) as [ro Hro]. rewrite Hro.
  destruct (potential_spec setord neighs p x ci Hso Hv Hr Hci) as (comms & Hcm & Hcomms). rewrite Hcm.
  destruct (best_move_spec M p x ci ro comms Hv Hci) as (db & cb & Hb & Hpos & Hcase & Hmax).
  { intros c Hc. destruct (Hcomms c Hc) as [H1 [H2 _]]. auto. }
  rewrite Hb.
  assert (HG : forall c q ri, c <> ci -> delta_moveto M p x c = Some ri -> move_node p x c = Done q -> (stability M q - stability M p)%num = (ro + ri)%num).
  { intros c q ri Hc Hri Hm. rewrite <- !stability_spec by (try exact Hv; now apply (move_node_done_valid p x c q)).
    rewrite (delta_exact M p x ci c ro ri q); try assumption. ring. }
  assert (HC : forall q, step_of neighs p x q -> exists c ri, In c comms /\ delta_moveto M p x c = Some ri /\ (stability M q - stability M p)%num = (ro + ri)%num).
  { intros q (y & c & Hy & Ht & Hc & Hm). apply Hv in Hc. assert (Hne := together_dget p x y ci c Hv Hci Hc Ht).
    destruct (moveto_some M p x ci c Hv Hci Hne (valid_dget_lt p y c Hv Hc)) as [ri Hri]. exists c, ri. split; [|split; [exact Hri|now apply (HG c)]].
    apply (potential_complete setord neighs p x comms y c Hso Hcm Hy Hc). congruence. }
  destruct (Nat.eqb_spec cb ci) as [->|Hne].
  - exists p, 0%num. split; [reflexivity|]. split; [ring|].
    assert (HS : forall q, step_of neighs p x q -> (stability M q - stability M p < 0)%num).
    { intros q Hq. destruct (HC q Hq) as (c & ri & Hc & Hri & ->). refine (best_move_stays M p x ci ro comms db _ Hb c ri Hc Hri). intros d Hd. apply Hcomms, Hd. }
    split; [intros q Hq; apply Qclt_le_weak; now apply HS|]. left. now split.
  - destruct Hcase as [[? _]|[Hin (ri & Hri & Hdb)]]; [contradiction|]. destruct (Hcomms cb Hin) as (_ & Hlt & y & Hy & Hdy).
    destruct (move_node_valid p x cb Hv Hx Hlt) as (p' & Hm & _). rewrite Hm. exists p', db. split; [reflexivity|]. split; [rewrite Hdb; symmetry; now apply (HG cb)|]. split.
    + intros q Hq. destruct (HC q Hq) as (c & rc & Hc & Hrc & ->). exact (Hmax c rc Hc Hrc).
    + right. split; [|exact Hpos]. exists y, cb. split; [exact Hy|]. split; [|split; [now apply Hv|exact Hm]].
      intros (d & Hd1 & Hd2). apply Hv in Hd1, Hd2. congruence.
Qed.

(** * Steps of the same partition under other names of the clusters *)
Lemma same_together_stability M p q : num_nodes p = num_nodes q -> (forall y z, together p y z <-> together q y z) -> stability M p = stability M q.
Proof.
  intros Hn H. unfold stability. rewrite Hn. apply sumN_ext. intros i _. apply sumN_ext. intros j _.
  assert (E : sameb p i j = sameb q i j). { apply Bool.eq_true_iff_eq. rewrite !sameb_together. apply H. } now rewrite E.
Qed.
Lemma together_sym p y z : together p y z -> together p z y.
Proof. intros (c & H1 & H2). now exists c. Qed.
Lemma move_together p x c q y : valid p -> x < num_nodes p -> move_node p x c = Done q -> in_cluster (cluster_list p) c y -> y <> x ->
  forall z, z <> x -> (together q x z <-> together p y z).
Proof.
  intros Hv Hx Hm Hy Ny z Nz. destruct (C02_move_frame p x c q Hv Hx Hm) as (Hin & Hfr & _). destruct (move_node_done_valid p x c q Hv Hm) as [Hvq _]. split.
  - intros (d & H1 & H2). assert (d = c) as ->. { apply Hvq in H1, Hin. congruence. } exists c. split; [exact Hy|]. now apply (Hfr z Nz).
  - intros (d & H1 & H2). assert (d = c) as ->. { apply Hv in H1, Hy. congruence. } exists c. split; [exact Hin|]. now apply (Hfr z Nz).
Qed.
Lemma step_cleaned neighs p x q : valid p -> x < num_nodes p -> step_of neighs (remove_empty_clusters p) x q ->
  exists r, step_of neighs p x r /\ forall M, stability M r = stability M q.
Proof.
  intros Hv Hx (y & c' & Hy & Ht & Hc' & Hm'). rewrite remove_empty_together in Ht.
  assert (Hvc := remove_empty_valid p Hv). assert (Ny : y <> x).
  { intros ->. apply Ht. destruct (valid_node_dget p x Hv Hx) as [d Hd]. exists d. split; now apply Hv. }
  assert (Hyy : together (remove_empty_clusters p) y y) by (exists c'; now split). destruct (proj1 (remove_empty_together p y y) Hyy) as (c & Hc & _).
  assert (Hlt : c < length (cluster_list p)). { apply (valid_dget_lt p y c Hv). apply (proj2 Hv) in Hc. exact Hc. }
  destruct (move_node_valid p x c Hv Hx Hlt) as (r & Hm & Hvr). exists r. split; [exists y, c; auto|]. intros M.
  destruct (move_node_done_valid _ x c' q Hvc Hm') as [Hvq Hnq]. destruct (move_node_done_valid p x c r Hv Hm) as [_ Hnr].
  apply same_together_stability; [rewrite Hnr, Hnq; reflexivity|].
  assert (HX : forall z, z <> x -> (together r x z <-> together q x z)).
  { intros z Nz. rewrite (move_together p x c r y Hv Hx Hm Hc Ny z Nz), (move_together _ x c' q y Hvc Hx Hm' Hc' Ny z Nz). symmetry. apply remove_empty_together. }
  destruct (C02_move_frame p x c r Hv Hx Hm) as (I1 & _ & F1). destruct (C02_move_frame _ x c' q Hvc Hx Hm') as (I2 & _ & F2).
  intros a b. destruct (Nat.eq_dec a x) as [->|Na]; destruct (Nat.eq_dec b x) as [->|Nb].
  - split; intros _; [exists c'|exists c]; now split.
  - now apply HX.
  - split; intros H; apply together_sym, HX; auto; now apply together_sym.
  - rewrite (F1 a b Na Nb), (F2 a b Na Nb). symmetry. apply remove_empty_together.
Qed.

(** * Sweeps *)
Definition sweep_from setord M neighs (order : list nat) (s : option (partition * num)) : option (partition * num) :=
  fold_left (fun acc node => match acc with None => None | Some (q, d) =>
        match visit setord M neighs q node with None => None | Some (q', g) => Some (q', (d + g)%num) end end) order s.
Lemma sweep_from_none setord M neighs order : sweep_from setord M neighs order None = None.
Proof. induction order as [|x o IH]; [reflexivity|exact IH]. Qed.
(** the gain at every visit is at most the gain of the sweep *)
Lemma sweep_from_visits setord M neighs n : is_iteration_order setord -> neighs_in_range n neighs ->
  forall order p d0 p' d, order_in_range n order -> valid p -> num_nodes p = n -> sweep_from setord M neighs order (Some (p, d0)) = Some (p', d) ->
    valid p' /\ num_nodes p' = n /\ (d0 <= d)%num /\
    forall o1 x o2, order = o1 ++ x :: o2 -> exists px e p2 g, sweep_from setord M neighs o1 (Some (p, d0)) = Some (px, e) /\ valid px /\ num_nodes px = n /\
      visit setord M neighs px x = Some (p2, g) /\ (d0 <= e)%num /\ (e + g <= d)%num.
Proof.
  intros Hso Hr. induction order as [|x o IH]; intros p d0 p' d Ho Hv Hn HF.
  - cbn in HF. injection HF as <- E. assert (d0 = d) as <- by exact E. split; [exact Hv|]. split; [exact Hn|]. split; [apply Qcle_refl|]. intros [|? ?] ? ? [=].
  - cbn [sweep_from fold_left] in HF. rewrite <- Hn in Hr. destruct (visit_spec setord M neighs p x Hso Hv Hr) as (q & g & Hvis & Hvq & Hnq & Hg & _); [rewrite Hn; apply Ho; now left|].
    rewrite Hvis in HF. rewrite Hn in Hr, Hnq. destruct (IH q (d0 + g)%num p' d) as (V & N & L & A); [intros y Hy; apply Ho; now right|exact Hvq|exact Hnq|exact HF|].
    split; [exact V|]. split; [exact N|]. split; [revert L Hg; generalize d0 d g; qlra|]. intros [|y o1] z o2 [= <- E].
    + exists p, d0, q, g. split; [reflexivity|]. split; [exact Hv|]. split; [exact Hn|]. split; [exact Hvis|]. split; [apply Qcle_refl|exact L].
    + destruct (A o1 z o2 E) as (px & e & p2 & g2 & H1 & H2 & H3 & H4 & H5 & H6). exists px, e, p2, g2. split; [cbn [sweep_from fold_left]; rewrite Hvis; exact H1|].
      repeat (split; [assumption|]). split; [|exact H6]. revert H5 Hg. generalize d0 e g. qlra.
Qed.
Lemma sweeps_last setord M neighs orders thr nmax n : is_iteration_order setord -> neighs_in_range n neighs -> (forall k, order_in_range n (orders k)) ->
  forall fuel p dl dt nl p' d k, valid p -> num_nodes p = n -> (thr < dl)%num -> sweeps fuel setord M neighs orders thr nmax p dl dt nl = MDone p' d k -> k < nmax ->
    exists p0 p1 e, valid p0 /\ num_nodes p0 = n /\ sweep setord M neighs (orders (k - 1)) p0 = Some (p1, e) /\ (e <= thr)%num /\ p' = remove_empty_clusters p1.
Proof.
  intros Hso Hr Ho. induction fuel as [|fuel IH]; intros p dl dt nl p' d k Hv Hn Hdl HF Hk; cbn [sweeps] in HF.
  - destruct (qltb_spec thr dl) as [_|N]; [|contradiction]. destruct (Nat.ltb_spec nl nmax); cbn [andb] in HF; [discriminate|]. injection HF as _ _ <-. lia.
  - destruct (qltb_spec thr dl) as [_|N]; [|contradiction]. destruct (Nat.ltb_spec nl nmax); cbn [andb] in HF; [|injection HF as _ _ <-; lia].
    destruct (sweep setord M neighs (orders nl) p) as [[p1 e]|] eqn:ES; [|discriminate].
    destruct (sweep_from_visits setord M neighs n Hso Hr (orders nl) p 0%num p1 e (Ho nl) Hv Hn ES) as (V & N & _ & _).
    destruct (qltb_spec thr e) as [Hlt|Hnl].
    + exact (IH p1 e _ _ p' d k V N Hlt HF Hk).
    + assert (E : MDone (remove_empty_clusters p1) (dt + e)%num (S nl) = MDone p' d k).
      { destruct fuel; cbn [sweeps] in HF; (destruct (qltb_spec thr e) as [X|_]; [contradiction|]); exact HF. }
      assert (S nl = k) as <- by congruence. assert (remove_empty_clusters p1 = p') as <- by congruence. exists p, p1, e. cbn [Nat.sub]. rewrite Nat.sub_0_r.
      repeat (split; [assumption|]). split; [now apply Qcnot_lt_le|reflexivity].
Qed.

(** * C188: where the moving stops *)
(** every sweep visits every node once *)
Definition full_orders (n : nat) (orders : nat -> list nat) : Prop := forall k, Permutation (orders k) (seq 0 n).
Lemma full_in_range n orders : full_orders n orders -> forall k, order_in_range n (orders k).
Proof. intros H k x Hx. apply (Permutation_in _ (H k)) in Hx. apply in_seq in Hx. lia. Qed.
(** stopped by the threshold and not by the cap, the moves leave a local optimum *)
Definition C188_statement : Prop := forall setord M neighs orders thr cap p p' gain k,
  is_iteration_order setord -> valid p -> neighs_in_range (num_nodes p) neighs -> full_orders (num_nodes p) orders -> (0 <= thr)%num -> (thr < 1)%num ->
  louvain_move_nodes setord M neighs orders thr cap p = MDone p' gain k -> k < cap -> local_optimum M neighs thr p'.

(** steps without gain are made, undo what was compared before, and are not counted *)
Definition M188 : mat := fun i j => nth j (nth i
  [[qn 2; qn 2; qn 1; qz (-5)]; [qn 2; qn 1; qz (-5); qn 2]; [qn 1; qz (-5); qn 5; qz (-1)]; [qz (-5); qn 2; qz (-1); qn 4]] []) 0%num.
Definition all_others (x : nat) : list nat := filter (fun y => negb (y =? x)) (seq 0 4).
Definition orders188 (k : nat) : list nat := match k with 1 => [1; 0; 2; 3] | _ => [0; 2; 1; 3] end.
Lemma run188 : exists p' g k, louvain_move_nodes (@rev nat) M188 all_others orders188 0%num 1000 (part_default 4) = MDone p' g k /\
  cluster_list p' = [[0]; [2]; [1; 3]] /\ k = 3.
Proof. eexists _, _, _. vm_compute. repeat split; reflexivity. Qed.
Definition p188 : partition := match louvain_move_nodes (@rev nat) M188 all_others orders188 0%num 1000 (part_default 4) with MDone p _ _ => p | _ => part_default 4 end.
Definition q188 : partition := match move_node p188 2 0 with Done q => q | _ => p188 end.
Lemma rev_order : is_iteration_order (@rev nat).
Proof. intros l. apply Permutation_sym, Permutation_rev. Qed.
Lemma orders188_full : full_orders 4 orders188.
Proof. intros [|[|k]]; cbn; apply NoDup_Permutation; try apply seq_NoDup; try (repeat constructor; cbn; intuition lia); intros x; cbn; intuition lia. Qed.
Lemma others_in_range : neighs_in_range 4 all_others.
Proof. intros x y _ H. apply filter_In in H. destruct H as [H _]. apply in_seq in H. lia. Qed.
Theorem C188_ties_refuted : ~ C188_statement.
Proof.
  intros H. destruct (louvain_move_nodes (@rev nat) M188 all_others orders188 0%num 1000 (part_default 4)) as [p' g k| |] eqn:E; [|destruct run188 as (? & ? & ? & X & _); congruence ..].
  destruct run188 as (p2 & g2 & k2 & X & EC & Ek). assert (k = 3) by congruence. assert (p' = p2) by congruence. subst p2 k. clear X.
  assert (Hl := H (@rev nat) M188 all_others orders188 0%num 1000 (part_default 4) p' g 3 rev_order (default_valid 4) others_in_range orders188_full
    ltac:(discriminate) ltac:(reflexivity) E ltac:(lia) 2).
  assert (V : p' = p188). { unfold p188. now rewrite E. } clear E. subst p'.
  assert (G : (gain_of M188 p188 q188 <= 0)%num).
  { apply Hl; [apply Nat.ltb_lt; vm_compute; reflexivity|]. exists 0, 0. split; [cbn; tauto|]. split; [|split; [exists [0]; split; [rewrite EC; reflexivity|now left]|vm_compute; reflexivity]].
    intros (a & (c & Ec & Hc) & (d & Ed & Hd)). rewrite EC in Ec, Ed. destruct a as [|[|[|a]]]; cbn in Ec, Ed; try (destruct a; discriminate);
      injection Ec as <-; injection Ed as <-; cbn in Hc, Hd; lia. }
  vm_compute in G. now apply G.
Qed.

(** what holds: in the last sweep no visited node could gain more than the threshold *)
Theorem C188_last_sweep_partial : forall setord M neighs orders thr cap p p' gain k,
  is_iteration_order setord -> valid p -> neighs_in_range (num_nodes p) neighs -> full_orders (num_nodes p) orders -> (0 <= thr)%num -> (thr < 1)%num ->
  louvain_move_nodes setord M neighs orders thr cap p = MDone p' gain k -> k < cap ->
  exists order p0 p1 e, Permutation order (seq 0 (num_nodes p)) /\ sweep setord M neighs order p0 = Some (p1, e) /\ p' = remove_empty_clusters p1 /\ (gain_of M p0 p1 <= thr)%num /\
    forall o1 x o2, order = o1 ++ x :: o2 -> exists px g, sweep setord M neighs o1 p0 = Some (px, g) /\
      forall q, step_of neighs px x q -> (gain_of M px q <= thr)%num.
Proof.
  intros setord M neighs orders thr cap p p' gain k Hso Hv Hr Ho H0 H1 HF Hk. assert (Hir := full_in_range _ _ Ho).
  destruct (sweeps_last setord M neighs orders thr cap (num_nodes p) Hso Hr Hir _ _ _ _ _ _ _ _ Hv eq_refl H1 HF Hk) as (p0 & p1 & e & V0 & N0 & ES & He & EP).
  exists (orders (k - 1)), p0, p1, e. split; [apply Ho|]. split; [exact ES|]. split; [exact EP|].
  destruct (sweep_from_visits setord M neighs _ Hso Hr (orders (k - 1)) p0 0%num p1 e (Hir _) V0 N0 ES) as (V1 & N1 & _ & A). split.
  - unfold gain_of. rewrite <- N0 in Hr. destruct (sweep_spec setord M neighs (orders (k - 1)) p0 Hso V0 Hr) as (a & b & E1 & _ & _ & _ & E2); [rewrite N0; apply Hir|].
    assert (a = p1) by congruence. assert (b = e) by congruence. subst a b. rewrite <- !stability_spec, E2 by assumption. revert He. generalize (compute_stability M p0) e thr. qlra.
  - intros o1 x o2 E. destruct (A o1 x o2 E) as (px & g & p2 & g2 & E1 & Vx & Nx & E2 & Hg & Hle). exists px, g. split; [exact E1|]. intros q Hq.
    assert (Hx : x < num_nodes px). { rewrite Nx. apply (Hir (k - 1)). rewrite E. apply in_or_app. right. now left. }
    rewrite <- Nx in Hr. destruct (C188_visit_best setord M neighs px x Hso Vx Hr Hx) as (p3 & g3 & E3 & _ & Hmax & _). assert (Q : g3 = g2) by congruence. rewrite Q in *. clear Q.
    specialize (Hmax q Hq). revert Hmax Hg Hle He. generalize (gain_of M px q) g g2 e thr. qlra.
Qed.
(** and when every step either loses or gains more than the threshold, a local optimum is reached *)
Theorem C188_no_ties_partial : forall setord M neighs orders thr cap p p' gain k,
  is_iteration_order setord -> valid p -> neighs_in_range (num_nodes p) neighs -> full_orders (num_nodes p) orders -> (0 <= thr)%num -> (thr < 1)%num ->
  (forall q x r, valid q -> num_nodes q = num_nodes p -> x < num_nodes p -> step_of neighs q x r -> (gain_of M q r < 0)%num \/ (thr < gain_of M q r)%num) ->
  louvain_move_nodes setord M neighs orders thr cap p = MDone p' gain k -> k < cap ->
  forall x q, x < num_nodes p' -> step_of neighs p' x q -> (gain_of M p' q < 0)%num.
Proof.
  intros setord M neighs orders thr cap p p' gain k Hso Hv Hr Ho H0 H1 HT HF Hk. assert (Hir := full_in_range _ _ Ho).
  destruct (sweeps_last setord M neighs orders thr cap (num_nodes p) Hso Hr Hir _ _ _ _ _ _ _ _ Hv eq_refl H1 HF Hk) as (p0 & p1 & e & V0 & N0 & ES & He & ->).
  destruct (sweep_from_visits setord M neighs _ Hso Hr (orders (k - 1)) p0 0%num p1 e (Hir _) V0 N0 ES) as (V1 & N1 & _ & A).
  (* no visit of the last sweep changes anything *)
  assert (B : forall l r, orders (k - 1) = l ++ r -> sweep setord M neighs l p0 = Some (p0, 0%num)).
  { induction l as [|y l IH] using rev_ind; intros r E; [reflexivity|]. rewrite <- app_assoc in E. cbn [app] in E. destruct (A l y r E) as (px & g & p2 & g2 & E1 & Vx & Nx & E2 & Hg & Hle).
    specialize (IH _ E). unfold sweep in IH |- *. rewrite fold_left_app, IH. cbn [fold_left]. unfold sweep_from in E1. rewrite IH in E1.
    assert (p0 = px) by congruence. assert (g = 0%num) by congruence. subst px g. rewrite E2.
    assert (Hy : y < num_nodes p0). { rewrite N0. apply (Hir (k - 1)). rewrite E. apply in_or_app. right. now left. }
    rewrite <- N0 in Hr. destruct (C188_visit_best setord M neighs p0 y Hso V0 Hr Hy) as (p3 & g3 & E3 & Eg & _ & [[-> _]|[Hs Hp]]);
      assert (Q : g3 = g2) by congruence; rewrite Q in *; clear Q.
    - assert (p0 = p2) as <- by congruence. rewrite Eg. unfold gain_of. repeat f_equal. ring.
    - exfalso. assert (p3 = p2) by congruence. subst p3. rewrite N0 in Hy. destruct (HT p0 y p2 V0 N0 Hy Hs) as [X|X]; rewrite <- Eg in X; revert X Hp Hle He; generalize g2 e thr; qlra. }
  assert (EL := B (orders (k - 1)) [] ltac:(now rewrite app_nil_r)). assert (p1 = p0) by congruence. subst p1.
  intros x q Hx Hs. cbn [num_nodes remove_empty_clusters] in Hx. destruct (step_cleaned neighs p0 x q V0 Hx Hs) as (r & Hr0 & Er).
  assert (G : (gain_of M p0 r < 0)%num).
  { assert (Hin : In x (orders (k - 1))). { apply (Permutation_in _ (Permutation_sym (Ho (k - 1)))). apply in_seq. lia. }
    destruct (in_split x _ Hin) as (o1 & o2 & Eo). destruct (A o1 x o2 Eo) as (px & g & p2 & g2 & E1 & Vx & Nx & E2 & Hg & Hle).
    assert (E3 := B o1 _ Eo). assert (px = p0 /\ g = 0%num) as [-> ->] by (unfold sweep in E3; unfold sweep_from in E1; rewrite E3 in E1; split; congruence).
    rewrite <- N0 in Hr. destruct (C188_visit_best setord M neighs p0 x Hso V0 Hr Hx) as (p3 & g3 & E4 & Eg & Hmax & _). assert (Q : g3 = g2) by congruence. rewrite Q in *. clear Q.
    specialize (Hmax r Hr0). rewrite N0 in Hx. destruct (HT p0 x r V0 N0 Hx Hr0) as [X|X]; [exact X|]. exfalso. revert X Hmax Hle He. generalize (gain_of M p0 r) g2 e thr. qlra. }
  unfold gain_of in *. rewrite <- (Er M). rewrite <- (stability_spec M (remove_empty_clusters p0)), stability_remove_empty, stability_spec by (try assumption; now apply remove_empty_valid). exact G.
Qed.
(** two nodes that gain by sharing a cluster *)
Definition other2 (x : nat) : list nat := [1 - x].
Example C188_applies : let M := fun i j => if i =? j then qn 1 else qn 2 in
  neighs_in_range 2 other2 /\ full_orders 2 (fun _ => [1; 0]) /\
  (forall q x r, valid q -> num_nodes q = 2 -> x < 2 -> step_of other2 q x r -> (gain_of M q r < 0)%num \/ (0 < gain_of M q r)%num) /\
  exists p' g k, louvain_move_nodes (@rev nat) M other2 (fun _ => [1; 0]) 0%num 10 (part_default 2) = MDone p' g k /\ k = 3 /\ cluster_list p' = [[1; 0]].
Proof.
  intros M. split; [intros x y Hx [<-|[]]; lia|]. split; [intros k; cbn; apply perm_swap|]. split; [|eexists _, _, _; vm_compute; repeat split; reflexivity].
  intros q x r Hv Hn Hx (y & c & [<-|[]] & Ht & Hc & Hm). right. rewrite <- Hn in Hx. assert (Hm' := Hm). apply move_node_done_valid in Hm'; [|exact Hv]. destruct Hm' as [Hvr Hnr].
  destruct (C02_move_frame q x c r Hv Hx Hm) as (I1 & F1 & _). assert (Nx : 1 - x <> x) by lia. assert (I2 : in_cluster (cluster_list r) c (1 - x)) by now apply F1.
  assert (HD : forall p z, valid p -> num_nodes p = 2 -> z < 2 -> sameb p z z = true).
  { intros p z V N Hz. apply sameb_together. destruct (valid_node_dget p z V) as [d Hd]; [lia|]. exists d. split; now apply V. }
  assert (HS : sameb r 0 1 = true /\ sameb r 1 0 = true /\ sameb q 0 1 = false /\ sameb q 1 0 = false).
  { assert (x = 0 \/ x = 1) as [-> | ->] by lia; cbn [Nat.sub] in *; repeat split; try (apply sameb_together; exists c; now split);
      apply Bool.not_true_is_false; intros E; apply sameb_together in E; apply Ht; first [exact E|now apply together_sym]. }
  destruct HS as (S1 & S2 & S3 & S4). unfold gain_of, stability. rewrite Hnr, Hn. unfold sumN. cbn [seq]. rewrite !sumL_cons, !sumL_nil.
  rewrite S1, S2, S3, S4, !(HD r) by (try assumption; lia). rewrite !(HD q) by (try assumption; lia). vm_compute. reflexivity.
Qed.
Print Assumptions C188_visit_best.
Print Assumptions C188_ties_refuted.
Print Assumptions C188_last_sweep_partial.
Print Assumptions C188_no_ties_partial.
