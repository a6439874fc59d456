(** C186, C187: how stable partitions are under a flow. *)
From Verif Require Import Base PartitionModel PartitionSpec PartitionProofs LouvainModel LouvainProofs SparseModel EventsModel EventsSpec TransModel TransSpec MatProofs
  FlowModel FlowSpec FlowProofs FlowGridProofs FlowProps FlowStabProofs.

(** ** Vocabulary *)
(** probability to start in a cluster *)
Definition starts_in (p : nat -> num) (c : list nat) : num := sumL p c.
(** 1 - sum of the squares of these probabilities: two walkers start in different clusters *)
Definition heterogeneity (p : nat -> num) (q : partition) : num := (1 - sumL (fun c => starts_in p c * starts_in p c) (cluster_list q))%num.
(** walkers that end at the same node started in the same cluster *)
Definition never_mixes (n : nat) (p : nat -> num) (T : mat) (q : partition) : Prop := forall i j k, i < n -> j < n -> k < n ->
  (p i * T i k)%num <> 0%num -> (p j * T j k)%num <> 0%num -> together q i j.

(** every stored integral is an average from the start, later ones over more steps *)
Lemma stored_averages n kd TL TI p1 tl g r rtol F : exact kd rtol -> distribution_ok n p1 -> times_ok tl -> all_stochastic n TL TI ->
  flow_integral n kd TL TI p1 tl g r rtol = Some F ->
  exists ms, StronglySorted Nat.lt ms /\ (forall m, In m ms -> 0 < m /\ m <= steps_in TL TI tl) /\
    Forall2 (fun A m => eqm n A (flow_average n TL TI p1 tl r m)) (f_I F) ms.
Proof.
  intros He Hp Ht HS HF. destruct (flow_stored _ _ _ _ _ _ _ _ _ _ HS HF) as (Ts & kg & tg & ES & _ & _ & _ & _ & _ & _ & _ & EI).
  exists (stored kg 0 (steps_in TL TI tl)). split; [apply stored_sorted|].
  assert (HI : forall m, In m (stored kg 0 (steps_in TL TI tl)) -> 0 < m /\ m <= steps_in TL TI tl) by (intros m Hm; apply stored_in in Hm; tauto).
  split; [exact HI|]. rewrite EI. revert HI. generalize (stored kg 0 (steps_in TL TI tl)). induction l as [|m l IH]; intros HI; constructor.
  - destruct (HI m (or_introl eq_refl)). now apply integral_at_average.
  - apply IH. intros a Ha. apply HI. now right.
Qed.
Lemma qn_positive m : 0 < m -> (0 < qn m)%num.
Proof. intros H. apply Qclt_le_trans with (qn 1); [reflexivity|now apply qn_le]. Qed.
Lemma the_distribution_ok n p1 : distribution_ok n p1 -> distribution n (the_distribution n p1).
Proof.
  destruct p1 as [p|]; cbn; [now intros H|]. intros H. split.
  - intros i _. apply qdiv_nonneg; [discriminate|]. now apply qn_positive.
  - unfold sumN. rewrite sumL_const, seq_length. field. apply qneq_pos. now apply qn_positive.
Qed.
Lemma flow_transition_stochastic n TL TI r k : all_stochastic n TL TI -> k < length (given TL TI) -> stochastic n (flow_transition n TL TI r k).
Proof.
  intros HS Hk. unfold flow_transition. destruct TL as [l|]; cbn [given] in *.
  - apply HS. now apply nth_In.
  - apply stochastic_chain. intros A HA. apply HS. cbn [given]. unfold in_order in HA. destruct TI as [l|]; [|cbn in Hk; lia]. cbn [given] in *. assert (HA' : In A (if r then rev l else l)) by (rewrite <- (firstn_skipn (S k)); apply in_or_app; now left). destruct r; [now apply in_rev|exact HA'].
Qed.
Section Flow.
Context (n : nat) (TL TI : option (list mat)) (p1 : option (nat -> num)) (tl : option (list num)) (r : bool).
Context (Hp : distribution_ok n p1) (Ht : times_ok tl) (HS : all_stochastic n TL TI).
Let ts := flow_times TL TI tl r.
Lemma ts_monotone : monotone ts.
Proof. apply (directed_monotone r). now apply flow_times_directed. Qed.
Lemma below_times m : 0 < m -> m <= steps_in TL TI tl -> m < length ts.
Proof. unfold ts. rewrite flow_times_length. unfold steps_in. lia. Qed.
Lemma below_given k m : k < m -> m <= steps_in TL TI tl -> k < length (given TL TI).
Proof. unfold steps_in. lia. Qed.
End Flow.

Lemma same_stability n q : valid q -> num_nodes q = n -> forall A B, eqm n A B -> compute_stability A q = compute_stability B q.
Proof. exact (stab_ext n q). Qed.

(** * C186: the longer the flow, the less stable is a partition *)
Lemma average_longer n l p1 tl r q m d : distribution_ok n p1 -> times_ok tl -> all_stochastic n None (Some l) -> valid q -> num_nodes q = n ->
  0 < m -> m + d <= steps_in None (Some l) tl ->
  (compute_stability (flow_average n None (Some l) p1 tl r (m + d)) q <= compute_stability (flow_average n None (Some l) p1 tl r m) q)%num.
Proof.
  intros Hp Ht HS Hq Hn H0. induction d as [|d IH]; intros Hm; [rewrite Nat.add_0_r; apply Qcle_refl|].
  apply Qcle_trans with (compute_stability (flow_average n None (Some l) p1 tl r (m + d)) q); [|apply IH; lia]. clear IH.
  rewrite Nat.add_succ_r. unfold flow_average. apply (average_shorter n _ _ _ (ts_monotone None (Some l) tl r Ht) q Hn).
  - intros k Hk. apply Qcle_trans with (compute_stability (flow_cov n (the_distribution n p1) (mmul n (flow_transition n None (Some l) r k) (nth (S k) (in_order r l) ident))) q).
    + match goal with |- (?a <= ?b)%num => replace b with a; [apply Qcle_refl|] end. apply (same_stability n q Hq Hn). apply flow_cov_ext.
      unfold flow_transition, transition. cbn [given]. rewrite (firstn_S_nth (in_order r l) (S k) ident); [apply chain_snoc|].
      assert (Hl : length (in_order r l) = length l) by (unfold in_order; destruct r; [apply rev_length|reflexivity]). unfold steps_in in Hm. cbn [given] in Hm. lia.
    + unfold stab. rewrite (stability_eq (flow_cov n (the_distribution n p1) (mmul n _ _)) q), (stability_eq (flow_cov n (the_distribution n p1) (flow_transition n None (Some l) r k)) q).
      apply (sumL_le (fun c => block _ c c) (fun c => block _ c c)). intros c Hc. apply (block_step n).
      * now apply the_distribution_ok.
      * apply flow_transition_stochastic; [exact HS|]. unfold steps_in in Hm. cbn [given] in *. lia.
      * apply HS. cbn [given]. unfold in_order. assert (Hk2 : S k < length l) by (unfold steps_in in Hm; cbn [given] in Hm; lia).
        destruct r; [apply in_rev|]; apply nth_In; [rewrite rev_length|]; exact Hk2.
      * intros i Hi. apply (cover_below n (cluster_list q)) with c; [rewrite <- Hn; now apply valid_perm|exact Hc|exact Hi].
  - lia.
  - rewrite <- Nat.add_succ_r. apply below_times; lia.
Qed.
Theorem C186_longer : forall n kd l p1 tl g r rtol F q a b, exact kd rtol -> distribution_ok n p1 -> times_ok tl -> all_stochastic n None (Some l) ->
  flow_integral n kd None (Some l) p1 tl g r rtol = Some F -> valid q -> num_nodes q = n -> a <= b -> b < length (f_I F) ->
  (compute_stability (nth b (f_I F) ident) q <= compute_stability (nth a (f_I F) ident) q)%num.
Proof.
  intros n kd l p1 tl g r rtol F q a b He Hp Ht HS HF Hq Hn Hab Hb.
  destruct (stored_averages _ _ _ _ _ _ _ _ _ _ He Hp Ht HS HF) as (ms & Hms & Hin & H2).
  assert (HL : length (f_I F) = length ms) by now apply Forall2_same_length in H2.
  assert (HN : forall k, k < length ms -> eqm n (nth k (f_I F) ident) (flow_average n None (Some l) p1 tl r (nth k ms 0))).
  { clear - H2. induction H2 as [|A m X Y HA H2 IH]; intros [|k] Hk; cbn [length] in Hk; try lia; cbn [nth]; [exact HA|]. apply IH. lia. }
  rewrite (same_stability n q Hq Hn _ _ (HN b ltac:(lia))), (same_stability n q Hq Hn _ _ (HN a ltac:(lia))). 
  assert (Hle : nth a ms 0 <= nth b ms 0).
  { destruct (Nat.eq_dec a b) as [->|N]; [lia|]. rewrite HL in Hb. assert (Hlt : a < b) by lia. clear - Hms Hlt Hb. revert a b Hlt Hb. induction Hms as [|x ms Hms IH HF]; intros a b Hlt Hb; cbn [length] in Hb; [lia|].
    destruct b as [|b]; [lia|]. destruct a as [|a]; cbn [nth]; [|apply IH; lia]. rewrite Forall_forall in HF. apply Nat.lt_le_incl, HF, nth_In. lia. }
  replace (nth b ms 0) with (nth a ms 0 + (nth b ms 0 - nth a ms 0)) by lia. apply average_longer; try assumption.
  - destruct (Hin (nth a ms 0)) as [H0 _]; [apply nth_In; lia|exact H0].
  - destruct (Hin (nth b ms 0)) as [_ H0]; [apply nth_In; lia|]. lia.
Qed.

(** * C187: bounds *)
Theorem C187_bounds : forall n kd TL TI p1 tl g r rtol F q A, exact kd rtol -> distribution_ok n p1 -> times_ok tl -> all_stochastic n TL TI ->
  flow_integral n kd TL TI p1 tl g r rtol = Some F -> valid q -> num_nodes q = n -> In A (f_I F) ->
  (0 <= compute_stability A q)%num /\ (compute_stability A q <= heterogeneity (the_distribution n p1) q)%num.
Proof.
  intros n kd TL TI p1 tl g r rtol F q A He Hp Ht HS HF Hq Hn HA. split.
  - apply (stab_nonneg n q Hq Hn). now apply (C46_exact_partial n kd TL TI p1 tl g r rtol F).
  - destruct (stored_averages _ _ _ _ _ _ _ _ _ _ He Hp Ht HS HF) as (ms & _ & Hin & H2).
    destruct (In_nth _ _ ident HA) as (k & Hk & EA). assert (HL := Forall2_same_length _ _ _ H2).
    assert (HN : eqm n A (flow_average n TL TI p1 tl r (nth k ms 0))).
    { rewrite <- EA. clear - H2 Hk HL. revert k Hk. induction H2 as [|B m X Y HB H2 IH]; intros [|k] Hk; cbn [length] in *; try lia; cbn [nth]; [exact HB|]. apply IH; lia. }
    rewrite (same_stability n q Hq Hn _ _ HN). destruct (Hin (nth k ms 0)) as [H0 Hm]; [apply nth_In; lia|].
    apply (average_upper n _ (the_distribution_ok n p1 Hp) _ _ (ts_monotone TL TI tl r Ht) q Hq Hn); [|exact H0|now apply below_times].
    intros j Hj. apply flow_transition_stochastic; [exact HS|]. now apply (below_given TL TI tl j (nth k ms 0)).
Qed.
(** the bound is reached if and only if walkers from different clusters never meet *)
Theorem C187_reached : forall n kd TL TI p1 tl r rtol F q A, exact kd rtol -> distribution_ok n p1 -> times_ok tl -> all_stochastic n TL TI ->
  flow_integral n kd TL TI p1 tl None r rtol = Some F -> length (flow_times TL TI tl r) = S (length (given TL TI)) -> valid q -> num_nodes q = n -> In A (f_I F) ->
  (compute_stability A q = heterogeneity (the_distribution n p1) q <->
   forall k, k < length (given TL TI) -> never_mixes n (the_distribution n p1) (flow_transition n TL TI r k) q).
Proof.
  intros n kd TL TI p1 tl r rtol F q A He Hp Ht HS HF HL Hq Hn HA.
  destruct (C85_default n kd TL TI p1 tl r rtol F He Hp Ht HS HF HL) as (B & EB & HB). rewrite EB in HA. destruct HA as [<-|[]].
  rewrite (same_stability n q Hq Hn _ _ HB). set (m := length (given TL TI)) in *.
  assert (HT : forall k, k < m -> stochastic n (flow_transition n TL TI r k)) by (intros k Hk; now apply flow_transition_stochastic).
  assert (H0 : 0 < m). { destruct (flow_integral_some _ _ _ _ _ _ _ _ _ _ HF) as (Ts & _ & _ & ES & Hne & _). destruct (source_facts n kd TL TI r Ts HS ES) as [HLs _]. unfold m. destruct Ts; [congruence|]. cbn [length] in HLs. lia. }
  assert (HC : Permutation (concat (cluster_list q)) (seq 0 n)) by (rewrite <- Hn; now apply valid_perm).
  transitivity (forall k, k < m -> sumL (fun c => sumN n (fun j => missing n (the_distribution n p1) (flow_transition n TL TI r k) j c)) (cluster_list q) = 0%num).
  - apply (average_reached n _ (the_distribution_ok n p1 Hp) _ _ (ts_monotone TL TI tl r Ht) q Hq Hn); [exact HT|exact H0|]. lia.
  - split; intros H k Hk.
    + intros i j x Hi Hj Hx Ni Nj. assert (G := H k Hk). rewrite (missing_apart n _ (the_distribution_ok n p1 Hp) _ HC _ (HT k Hk)) in G.
      destruct (G i j x Hi Hj Hx Ni Nj) as (c & Hc & Hic & Hjc). destruct (In_nth_error _ _ Hc) as (a & Ea). exists a. split; exists c; now split.
    + rewrite (missing_apart n _ (the_distribution_ok n p1 Hp) _ HC _ (HT k Hk)). intros i j x Hi Hj Hx Ni Nj.
      destruct (H k Hk i j x Hi Hj Hx Ni Nj) as (a & (c & Ec & Hic) & (d & Ed & Hjd)). rewrite Ec in Ed. injection Ed as <-. exists c. split; [now apply nth_error_In in Ec|now split].
Qed.
(** two steps without any mixing, then all walkers mix *)
Definition flow186 (g : option (list num)) := flow_integral 2 Dense None (Some [ident; half]) None (Some [qn 0; qn 1; qn 2]) g false None.
Example C186_applies : distribution_ok 2 None /\ times_ok (Some [qn 0; qn 1; qn 2]) /\ all_stochastic 2 None (Some [ident; half]) /\ valid (part_default 2) /\
  exists A B, match flow186 (Some [qn 0; qn 1; qn 2]) with Some F => f_I F = [A; B] | None => False end /\
    compute_stability A (part_default 2) = qf 1 2 /\ compute_stability B (part_default 2) = qf 1 4.
Proof.
  split; [cbn; lia|]. split; [apply increasing_sorted; repeat constructor|]. split; [exact inter47_stochastic|]. split; [apply (constructed_valid 2); constructor|].
  eexists. eexists. split; [reflexivity|]. split; vm_compute; now apply Qc_is_canon.
Qed.
Example C187_applies : exists A, match flow186 None with Some F => f_I F = [A] | None => False end /\
  length (flow_times None (Some [ident; half]) (Some [qn 0; qn 1; qn 2]) false) = S (length (given None (Some [ident; half]))) /\
  heterogeneity (the_distribution 2 None) (part_default 2) = qf 1 2 /\ compute_stability A (part_default 2) = qf 1 4 /\
  never_mixes 2 (the_distribution 2 None) ident (part_default 2).
Proof.
  eexists. split; [reflexivity|]. split; [reflexivity|]. split; [vm_compute; now apply Qc_is_canon|]. split; [vm_compute; now apply Qc_is_canon|].
  intros i j k Hi Hj Hk Ni Nj. assert (i = k /\ j = k) as [-> ->].
  { split; [destruct (Nat.eq_dec i k) as [|N]|destruct (Nat.eq_dec j k) as [|N]]; try assumption; exfalso; [apply Ni|apply Nj]; unfold ident; rewrite (proj2 (Nat.eqb_neq _ _) N); ring. }
  exists k. split; exists [k]; (split; [|now left]); destruct k as [|[|k]]; try reflexivity; lia.
Qed.

(** * C85, continued: the times reported with the integrals *)
Theorem C85_default_times : forall n kd TL TI p1 tl r rtol F, all_stochastic n TL TI -> flow_integral n kd TL TI p1 tl None r rtol = Some F ->
  let ts := flow_times TL TI tl r in f_t F = [nth 0 ts 0%num; last ts 0%num] /\ f_k F = [0; length ts - 1].
Proof.
  intros n kd TL TI p1 tl r rtol F HS HF ts. destruct (flow_stored _ _ _ _ _ _ _ _ _ _ HS HF) as (Ts & kg & tg & _ & _ & Hne & EG & <- & <- & _). fold ts in EG, Hne.
  cbn [time_grid] in EG. injection EG as <- <-. split; [|reflexivity]. do 2 f_equal. clear - Hne. destruct (exists_last Hne) as (l & x & ->).
  rewrite last_last, app_length. cbn [length]. rewrite Nat.add_sub, app_nth2 by lia. now rewrite Nat.sub_diag.
Qed.
Theorem C85_grid_times : forall n kd TL TI p1 tl g r rtol F, times_ok tl -> all_stochastic n TL TI -> flow_integral n kd TL TI p1 tl (Some g) r rtol = Some F ->
  let ts := flow_times TL TI tl r in
  length (f_t F) = length g /\ (forall s, In s (f_t F) <-> exists t, In t g /\ last_before r ts t s) /\ map (fun k => nth k ts 0%num) (f_k F) = f_t F.
Proof.
  intros n kd TL TI p1 tl g r rtol F Ht HS HF ts. destruct (flow_stored _ _ _ _ _ _ _ _ _ _ HS HF) as (Ts & kg & tg & _ & _ & Hne & EG & <- & <- & _). fold ts in EG, Hne.
  assert (Hd := flow_times_directed TL TI tl r Ht). fold ts in Hd. rewrite (time_grid_some r ts g Hd Hne) in EG. injection EG as <- <-. split; [|split].
  - rewrite map_length. unfold orient. destruct (direction g); [|reflexivity]. destruct (_ || _)%bool; [apply rev_length|reflexivity].
  - intros s. rewrite in_map_iff. split.
    + intros (t & <- & Ht'). exists t. split; [now apply (orient_in r)|now apply snap_spec].
    + intros (t & Hg & Hs). exists t. split; [|now apply orient_in]. exact (last_before_unique r ts t _ _ Hd (snap_spec r ts t Hd Hne) Hs).
  - rewrite map_map. apply map_ext. intros t. now destruct (place_spec r ts t Hd Hne) as (_ & -> & _).
Qed.
Example C85_times_apply : match flow_integral 2 Dense None (Some [ident; half]) None (Some [qn 0; qn 1; qn 2]) (Some [qf 5 2; qf 1 2]) false None with
  | Some F => f_t F = [qn 0; qn 2] /\ f_k F = [0; 2] | None => False end.
Proof. vm_compute. repeat split; repeat f_equal; now apply Qc_is_canon. Qed.

Print Assumptions C186_longer.
Print Assumptions C187_bounds.
Print Assumptions C187_reached.
Print Assumptions C85_default_times.
Print Assumptions C85_grid_times.
