(** Property C212: how much stability a flow can lose. *)
From Coq Require Import Reals Qreals Lra Lia.
From Verif Require Import Base PartitionModel PartitionSpec PartitionProofs GapModel GapProofs LouvainModel LouvainSpec LouvainProofs SparseModel EventsModel EventsSpec LaplacianProofs MergeProofs EventsProps TransModel TransSpec MatProofs
  FlowModel FlowSpec FlowProofs FlowStabProofs FlowStabProps JoinEndProps MeetProofs ErrorProps ExpModel ExpSpec ExpSeries ExpProps PeriodSpec PeriodProps PathSpec PathProps ContactStabProps.

(** ** Specification *)
(** probability that a walker at i is in another cluster after the step *)
Definition leaves (n : nat) (q : partition) (M : mat) (i : nat) : num := sumN n (fun j => if sameb q i j then 0%num else M i j).
(** no walker leaves its cluster in step k with a probability above the k-th number *)
Definition leaving (n : nat) (q : partition) (es : list num) (Ms : list mat) : Prop := Forall2 (fun e M => forall i, i < n -> (leaves n q M i <= e)%num) es Ms.

(** the matrices of the flow: rows of probabilities within the k-th number of [ds] from the exact
    exponentials of the Laplacians [Ls] over the times [ts] *)
Fixpoint nearly (n : nat) (lamda : R) (ts : list num) (Ls Ms : list mat) (ds : list R) : Prop :=
  match ts, Ls, Ms, ds with
  | [_], [], [], [] => True
  | t :: (u :: _) as r, L :: Ls, M :: Ms, d :: ds =>
      stochastic n M /\ (exists F, inter_matrix n (q2r (u - t)%num * lamda)%R L F /\ forall i, i < n -> (difference n (toR M) F i <= d)%R) /\ nearly n lamda r Ls Ms ds
  | _, _, _, _ => False
  end.
(** the lengths of the steps during which a contact joins two clusters; 0 for the other ones *)
Fixpoint crossed (t : table) (q : partition) (ts xs : list num) : Prop :=
  match ts, xs with
  | [_], [] => True
  | a :: (b :: _) as r, x :: xs => (x = (b - a)%num \/ (x = 0%num /\ contacts_inside t a b q)) /\ crossed t q r xs
  | _, _ => False
  end.
Definition total (ds : list R) : R := fold_right Rplus 0%R ds.

(** ** The flow whose walkers stay *)
Definition stay (n : nat) (q : partition) (M : mat) : mat := fun i j => ((if sameb q i j then M i j else 0) + (if i =? j then leaves n q M i else 0))%num.
Lemma leaves_nonneg n q M i : stochastic n M -> i < n -> (0 <= leaves n q M i)%num.
Proof. intros [HM _] Hi. apply sumN_nonneg. intros j Hj. destruct (sameb q i j); [discriminate|now apply HM]. Qed.
Lemma sum_at n i (x : num) : i < n -> sumN n (fun j => if i =? j then x else 0%num) = x.
Proof.
  intros Hi. unfold sumN. assert (HN := seq_NoDup n 0). assert (Hin : In i (seq 0 n)) by (apply seq_In_iff; exact Hi). induction (seq 0 n) as [|a l IH]; [destruct Hin|].
  rewrite sumL_cons. apply NoDup_cons_iff in HN. destruct HN as [Ha HN]. destruct (Nat.eqb_spec i a) as [->|Hne].
  - assert (E : sumL (fun j => if a =? j then x else 0%num) l = 0%num).
    { apply sumL_zero. intros j Hj. destruct (Nat.eqb_spec a j) as [->|]; [contradiction|reflexivity]. }
    rewrite E. ring.
  - destruct Hin as [E|Hin]; [now elim Hne|]. rewrite (IH HN Hin). ring.
Qed.
Lemma stay_stochastic n q M : stochastic n M -> stochastic n (stay n q M).
Proof.
  intros HM. split.
  - intros i j Hi Hj. unfold stay. pose proof (leaves_nonneg n q M i HM Hi) as HL. pose proof (proj1 HM i j Hi Hj) as HE.
    destruct (sameb q i j), (i =? j); revert HL HE; generalize (leaves n q M i) (M i j); intros; qlra.
  - intros i Hi. unfold stay. rewrite sumN_add, (sum_at n i (leaves n q M i) Hi). unfold leaves. rewrite <- sumN_add.
    rewrite <- (proj2 HM i Hi). apply sumN_ext. intros j Hj. destruct (sameb q i j); ring.
Qed.
Lemma stay_distance n q M i : stochastic n M -> i < n -> sameb q i i = true -> (row_distance n M (stay n q M) i <= leaves n q M i + leaves n q M i)%num.
Proof.
  intros HM Hi Hs. unfold row_distance. apply Qcle_trans with (sumN n (fun j => (if sameb q i j then 0 else M i j) + (if i =? j then leaves n q M i else 0))%num).
  - apply sumL_le. intros j Hj. apply seq_In_iff in Hj. unfold stay. pose proof (leaves_nonneg n q M i HM Hi) as HL. pose proof (proj1 HM i j Hi Hj) as HE.
    destruct (Nat.eqb_spec i j) as [<-|Hne].
    + rewrite Hs. apply qabs_least; revert HL; generalize (leaves n q M i) (M i i); intros; qlra.
    + destruct (sameb q i j); apply qabs_least; revert HE; generalize (M i j); intros; qlra.
  - rewrite sumN_add, (sum_at n i (leaves n q M i) Hi). apply Qcle_refl.
Qed.
Lemma stay_within n q M i j : stay n q M i j <> 0%num -> i = j \/ together q i j.
Proof.
  unfold stay. intros H. destruct (Nat.eqb_spec i j) as [->|Hne]; [now left|]. right. apply sameb_together. destruct (sameb q i j); [reflexivity|]. exfalso. apply H. ring.
Qed.
Lemma stay_all n q es Ms : valid q -> num_nodes q = n -> all_stochastic n None (Some Ms) -> leaving n q es Ms -> all_within n (map (fun e => e + e)%num es) Ms (map (stay n q) Ms).
Proof.
  intros Hq Hn HS H. unfold all_stochastic in HS. cbn [given] in HS. induction H as [|e M es Ms He H IH]; cbn [map]; constructor.
  - intros i Hi. assert (Hs : sameb q i i = true) by (apply sameb_together, (valid_self q i Hq); now rewrite Hn).
    pose proof (stay_distance n q M i (HS M (or_introl eq_refl)) Hi Hs) as K. specialize (He i Hi). revert K He. generalize (row_distance n M (stay n q M) i) (leaves n q M i). intros; qlra.
  - apply IH. intros B HB. apply HS. now right.
Qed.
Lemma stay_average n l p1 tl r q m : distribution_ok n p1 -> times_ok tl -> all_stochastic n None (Some l) -> valid q -> num_nodes q = n -> 0 < m -> m <= steps_in None (Some l) tl ->
  (forall B, In B l -> forall i j, i < n -> j < n -> B i j <> 0%num -> i = j \/ together q i j) ->
  compute_stability (flow_average n None (Some l) p1 tl r m) q = heterogeneity (the_distribution n p1) q.
Proof.
  intros Hp Ht HS Hq Hn H0 Hm HB. assert (HC : Permutation (concat (cluster_list q)) (seq 0 n)) by (rewrite <- Hn; now apply valid_perm).
  assert (HT : forall k, k < m -> stochastic n (flow_transition n None (Some l) r k)) by (intros k Hk; apply flow_transition_stochastic; [exact HS|now apply (below_given None (Some l) tl k m)]).
  apply (average_reached n _ (the_distribution_ok n p1 Hp) _ _ (ts_monotone None (Some l) tl r Ht) q Hq Hn); [exact HT|exact H0|now apply below_times|].
  intros k Hk. rewrite (missing_apart n _ (the_distribution_ok n p1 Hp) _ HC _ (HT k Hk)). intros i j x Hi Hj Hx Ni Nj.
  set (R := fun a b => a = b \/ together q a b).
  assert (HR : forall a b, a < n -> b < n -> flow_transition n None (Some l) r k a b <> 0%num -> R a b).
  { unfold flow_transition, transition, given. apply chain_within.
    - intros a. now left.
    - intros a b c [->|Hab] [->|Hbc]; [now left|now right|now right|]. right. now apply (together_trans q a b c Hq).
    - intros B HB'. apply HB. assert (HI : In B (TransSpec.in_order r l)) by (rewrite <- (firstn_skipn (S k)); apply in_or_app; now left). unfold TransSpec.in_order in HI. destruct r; [now apply in_rev|exact HI]. }
  assert (R1 : R i x) by (apply HR; [exact Hi|exact Hx|]; intros Z; apply Ni; rewrite Z; ring).
  assert (R2 : R j x) by (apply HR; [exact Hj|exact Hx|]; intros Z; apply Nj; rewrite Z; ring).
  assert (RX : together q i j).
  { destruct R1 as [->|R1], R2 as [->|R2].
    - apply (valid_self q x Hq). now rewrite Hn.
    - destruct R2 as (c & A1 & A2). now exists c.
    - exact R1.
    - apply (together_trans q i x j Hq R1). destruct R2 as (c & A1 & A2). now exists c. }
  destruct RX as (a & (c & Ec & Hic) & (d & Ed & Hjd)). rewrite Ec in Ed. injection Ed as <-. exists c. split; [now apply nth_error_In in Ec|now split].
Qed.

(** * C212: what a partition lacks to the largest possible stability is at most twice the sum of
    the probabilities to leave a cluster in a step *)
Theorem C212_leaving : forall n kd Ms es p1 tl g r rtol F q A, exact kd rtol -> distribution_ok n p1 -> times_ok tl -> all_stochastic n None (Some Ms) ->
  leaving n q es Ms -> flow_integral n kd None (Some Ms) p1 tl g r rtol = Some F -> valid q -> num_nodes q = n -> In A (f_I F) ->
  (heterogeneity (the_distribution n p1) q - (sumL (fun e => e) es + sumL (fun e => e) es) <= compute_stability A q)%num.
Proof.
  intros n kd Ms es p1 tl g r rtol F q A He Hp Ht HS HE HF Hq Hn HA.
  assert (Hn0 : 0 < n). { destruct n; [|lia]. exfalso. destruct p1 as [p'|]; cbn in Hp; [|lia]. destruct Hp as [_ Hp]. discriminate Hp. }
  destruct (stored_averages _ _ _ _ _ _ _ _ _ _ He Hp Ht HS HF) as (ms & _ & Hin & H2).
  assert (HX : exists m, In m ms /\ eqm n A (flow_average n None (Some Ms) p1 tl r m)).
  { clear - H2 HA. induction H2 as [|B m X Y HB H2 IH]; [destruct HA|]. destruct HA as [<-|HA]; [exists m; split; [now left|exact HB]|]. destruct (IH HA) as (m' & Hm' & E'). exists m'. split; [now right|exact E']. }
  destruct HX as (m & Hm & EA). destruct (Hin m Hm) as [H0 Hm']. rewrite (same_stability n q Hq Hn _ _ EA).
  assert (HS' : all_stochastic n None (Some (map (stay n q) Ms))) by (intros B HB; cbn [given] in HB; apply in_map_iff in HB; destruct HB as (M & <- & HM); now apply stay_stochastic, HS).
  assert (HW := stay_all n q es Ms Hq Hn HS HE). assert (HW' := all_within_sym _ _ _ _ HW).
  assert (Es : steps_in None (Some (map (stay n q) Ms)) tl = steps_in None (Some Ms) tl) by (unfold steps_in; cbn [given]; now rewrite map_length).
  assert (G := average_gap n _ _ p1 tl r q _ m Hp Ht HS' HS HW' Hq Hn H0 ltac:(rewrite Es; exact Hm') Hn0).
  rewrite (stay_average n (map (stay n q) Ms) p1 tl r q m Hp Ht HS' Hq Hn H0) in G; [|rewrite Es; exact Hm'|].
  2:{ intros B HB i j Hi Hj. apply in_map_iff in HB. destruct HB as (M & <- & _). apply stay_within. }
  rewrite sumL_map, sumL_add in G. revert G. generalize (sumL (fun e => e) es) (heterogeneity (the_distribution n p1) q) (compute_stability (flow_average n None (Some Ms) p1 tl r m) q). intros; qlra.
Qed.

Print Assumptions C212_leaving.
(** ** Exact exponentials *)
Lemma Ex_stays n T x i : prob_matrix n T -> (0 <= x)%R -> i < n -> (1 - x <= Ex n T x i i)%R.
Proof.
  intros HT Hx Hi. unfold Ex. assert (HP : (1 <= P n T x i i)%R).
  { pose proof (is_series_ge_term (term n T x i i) (P n T x i i) 0 (fun k => term_nonneg n T HT x i i k Hx Hi Hi) (P_series n T HT x i i Hi Hi)) as H.
    unfold term in H. cbn [pow fact rpow] in H. unfold reye in H. rewrite Nat.eqb_refl in H. cbn [INR] in H. lra. }
  pose proof (exp_ineq1_le (- x)) as HE. pose proof (exp_pos (- x)) as H0. apply Rle_trans with (exp (- x) * 1)%R; [lra|]. apply Rmult_le_compat_l; lra.
Qed.
Lemma largest n (f : nat -> num) : 0 < n -> exists e, (forall i, i < n -> (f i <= e)%num) /\ exists i, i < n /\ e = f i.
Proof.
  induction n as [|n IH]; [lia|]. intros _. destruct n as [|n].
  - exists (f 0). split; [intros i Hi; replace i with 0 by lia; apply Qcle_refl|]. exists 0. split; [lia|reflexivity].
  - destruct IH as (e & He & i & Hi & Ei); [lia|]. destruct (qleb_spec (f (S n)) e) as [L|L].
    + exists e. split; [|exists i; split; [lia|exact Ei]]. intros j Hj. destruct (Nat.eq_dec j (S n)) as [->|]; [exact L|apply He; lia].
    + apply Qcnot_le_lt in L. exists (f (S n)). split; [|exists (S n); split; [lia|reflexivity]]. intros j Hj. destruct (Nat.eq_dec j (S n)) as [->|]; [apply Qcle_refl|]. apply Qcle_trans with e; [apply He; lia|now apply Qclt_le_weak].
Qed.
Lemma leaves_real n q M F d i : i < n -> (forall j, j < n -> (0 <= F i j)%R) -> (difference n (toR M) F i <= d)%R ->
  (q2r (leaves n q M i) <= rsum n (fun j => if sameb q i j then 0 else F i j) + d)%R.
Proof.
  intros Hi HF Hd. unfold leaves. rewrite q2r_sumN. apply Rle_trans with (rsum n (fun j => if sameb q i j then 0 else F i j) + difference n (toR M) F i)%R; [|lra].
  unfold difference. rewrite <- rsum_add. apply rsum_le. intros j Hj. destruct (sameb q i j).
  - rewrite q2r_0. pose proof (Rabs_pos (toR M i j - F i j)). lra.
  - unfold toR. pose proof (Rle_abs (q2r (M i j) - F i j)). lra.
Qed.
Lemma step_leaves n lamda t (q : partition) (a b : num) L M F d x : 0 < n -> valid q -> num_nodes q = n -> (0 < lamda)%R -> (a < b)%num -> walk_like n L ->
  (forall w, (a <= w)%num -> (w < b)%num -> walk_laplacian n (fun i j => contact t i j w) L) ->
  inter_matrix n (q2r (b - a)%num * lamda)%R L F -> (forall i, i < n -> (difference n (toR M) F i <= d)%R) ->
  (x = (b - a)%num \/ (x = 0%num /\ contacts_inside t a b q)) ->
  exists e, (forall i, i < n -> (leaves n q M i <= e)%num) /\ (q2r e <= lamda * q2r x + d)%R.
Proof.
  intros Hn0 Hq Hn Hl Hab HL HW HF Hd Hx. set (y := (q2r (b - a)%num * lamda)%R) in *.
  assert (Hy : (0 < y)%R) by (apply Rmult_lt_0_compat; [rewrite <- q2r_0; apply q2r_lt; qlra|exact Hl]).
  destruct (C156_walk n L y HL (Rlt_le _ _ Hy)) as [_ HC]. destruct (HC F HF) as (HP & _ & HR & _). specialize (HR Hy).
  destruct (largest n (leaves n q M) Hn0) as (e & He & i & Hi & ->). exists (leaves n q M i). split; [exact He|].
  eapply Rle_trans; [apply (leaves_real n q M F d i Hi); [intros j Hj; apply HP; assumption|now apply Hd]|].
  assert (HS : forall j, j < n -> sameb q j j = true) by (intros j Hj; apply sameb_together, (valid_self q j Hq); now rewrite Hn).
  apply Rplus_le_compat_r. destruct Hx as [->|[-> HX]].
  - apply Rle_trans with (1 - F i i)%R.
    + rewrite <- (proj2 HP i Hi). assert (E : rsum n (F i) = (rsum n (fun j => if Nat.eqb i j then F i i else 0) + rsum n (fun j => if Nat.eqb i j then 0 else F i j))%R).
      { rewrite <- rsum_add. apply rsum_ext. intros j Hj. destruct (Nat.eqb_spec i j) as [<-|]; ring. }
      assert (E1 : rsum n (fun j => if Nat.eqb i j then F i i else 0%R) = F i i).
      { rewrite (rsum_ext n _ (fun j => reye i j * F i i)%R); [|intros j Hj; unfold reye; destruct (Nat.eqb i j); ring]. exact (reye_left n (fun _ _ => F i i) i i Hi). }
      rewrite E, E1. apply Rle_trans with (rsum n (fun j => if Nat.eqb i j then 0%R else F i j)); [|lra]. apply rsum_le. intros j Hj.
      pose proof (proj1 HP i j Hi Hj) as H0. destruct (Nat.eqb_spec i j) as [<-|]; [rewrite (HS i Hi); lra|]. destruct (sameb q i j); lra.
    + pose proof (Ex_stays n (step_of L) y i (step_prob n L HL) (Rlt_le _ _ Hy) Hi) as H. rewrite <- (inter_Ex n y L F HL HF i i Hi Hi) in H. unfold y in H. lra.
  - rewrite q2r_0, Rmult_0_r. apply Req_le. rewrite (rsum_ext n _ (fun _ => 0%R)); [rewrite rsum_const; ring|]. intros j Hj. destruct (sameb q i j) eqn:ES; [reflexivity|].
    destruct (Rle_lt_or_eq_dec 0 (F i j) (proj1 HP i j Hi Hj)) as [L0|L0]; [|now symmetry]. exfalso. apply (HR i j Hi Hj) in L0.
    assert (TG : i = j \/ together q i j).
    { clear ES Hi Hj He. induction L0 as [c Hc|c e f Hc He Hce Hef IH]; [now left|]. 
      assert (T1 : c = e \/ together q c e).
      { destruct (Nat.eq_dec c e) as [->|Hne]; [now left|]. right. apply (HX c e a); [apply Qcle_refl|exact Hab|].
        apply (laplacian_entry n (fun i j => contact t i j a) L c e); [apply HW; [apply Qcle_refl|exact Hab]|exact Hc|exact He|exact Hne|exact Hce]. }
      destruct T1 as [->|T1], IH as [->|T2]; [now left|now right|now right|]. right. now apply (together_trans q c e f Hq). }
    destruct TG as [->|TG]; [rewrite (HS j Hj) in ES; discriminate ES|]. apply sameb_together in TG. rewrite TG in ES. discriminate ES.
Qed.
Lemma all_leave n lamda t q : 0 < n -> valid q -> num_nodes q = n -> (0 < lamda)%R -> forall ts Ls Ms ds xs, fits n (fun w i j => contact t i j w) ts Ls -> nearly n lamda ts Ls Ms ds -> crossed t q ts xs ->
  all_stochastic n None (Some Ms) /\ exists es, leaving n q es Ms /\ (q2r (sumL (fun e => e) es) <= lamda * q2r (sumL (fun x => x) xs) + total ds)%R.
Proof.
  intros Hn0 Hq Hn Hl. induction ts as [|a [|b r] IH]; intros Ls Ms ds xs HF HN HX; [destruct HF| |].
  - destruct Ls; [|destruct HF]. destruct Ms; [|destruct HN]. destruct ds; [|destruct HN]. destruct xs; [|destruct HX]. split; [intros B []|]. exists []. split; [constructor|]. rewrite sumL_nil, q2r_0. cbn. lra.
  - destruct Ls as [|L Ls]; [destruct HF|]. destruct Ms as [|M Ms]; [destruct HN|]. destruct ds as [|d ds]; [destruct HN|]. destruct xs as [|x xs]; [destruct HX|].
    rewrite fits_step in HF. destruct HF as (Hab & HLk & HLC & HF). destruct HN as (HS & (F & HE & Hd) & HN). destruct HX as (Hx & HX).
    destruct (IH Ls Ms ds xs HF HN HX) as (IH1 & es & IH2 & IH3).
    destruct (step_leaves n lamda t q a b L M F d x Hn0 Hq Hn Hl Hab HLk HLC HE Hd Hx) as (e & He & Ee).
    split; [intros B [<-|HB]; [exact HS|now apply IH1]|]. exists (e :: es). split; [now constructor|]. rewrite !sumL_cons, !q2r_add. cbn [total fold_right]. unfold total in IH3. lra.
Qed.
Lemma network_loss N g a b ka kb Ls : right_laplacians N g -> no_self_contact (rows N) -> compute_laplacians N g a b = Some (ka, kb, Ls) -> ka <= kb ->
  forall lamda Ms ds xs t kd p1 gr r rtol F q A, (0 < lamda)%R -> nearly (num_nodes_of N) lamda (between (times (rows N)) ka kb) Ls Ms ds ->
    (forall i j u, contact (rows N) i j u -> contact t i j u) -> crossed t q (between (times (rows N)) ka kb) xs ->
    exact kd rtol -> distribution_ok (num_nodes_of N) p1 ->
    flow_integral (num_nodes_of N) kd None (Some Ms) p1 (Some (between (times (rows N)) ka kb)) gr r rtol = Some F ->
    valid q -> num_nodes q = num_nodes_of N -> In A (f_I F) ->
    (q2r (heterogeneity (the_distribution (num_nodes_of N) p1) q) - 2 * (lamda * q2r (sumL (fun x => x) xs) + total ds) <= q2r (compute_stability A q))%R.
Proof.
  intros HR Hself E Hk lamda Ms ds xs t kd p1 gr r rtol F q A Hl HM Ht HX He Hp HI Hq Hn HA.
  pose proof (network_fits N g a b ka kb Ls HR Hself E Hk) as HF.
  assert (HX' : crossed (rows N) q (between (times (rows N)) ka kb) xs).
  { clear - Ht HX. revert xs HX. induction (between (times (rows N)) ka kb) as [|x [|y l] IH]; intros [|z xs] HX; try exact HX. destruct HX as [H1 H2]. split; [|exact (IH xs H2)].
    destruct H1 as [H1|[H1 H3]]; [now left|right]. split; [exact H1|]. intros i j u A1 A2 Hc. exact (H3 i j u A1 A2 (Ht i j u Hc)). }
  assert (Hn0 : 0 < num_nodes_of N). { destruct (num_nodes_of N) as [|n]; [|lia]. exfalso. destruct p1 as [p'|]; cbn in Hp; [|lia]. destruct Hp as [_ Hp]. discriminate Hp. }
  destruct (all_leave (num_nodes_of N) lamda (rows N) q Hn0 Hq Hn Hl _ Ls Ms ds xs HF HM HX') as (HS & es & HE & Hes).
  pose proof (C212_leaving (num_nodes_of N) kd Ms es p1 (Some (between (times (rows N)) ka kb)) gr r rtol F q A He Hp (fits_increasing _ _ _ Ls HF) HS HE HI Hq Hn HA) as G.
  apply q2r_le in G. rewrite q2r_sub, q2r_add in G. lra.
Qed.
(** over a window, at most twice the rate times the time during which contacts join two clusters,
    and twice the errors of the matrices *)
Theorem C212_crossing : forall fuel srcs tgts starts ends N g a b ka kb Ls lamda Ms ds xs kd p1 gr r rtol F q A, make_net fuel true false srcs tgts starts ends = Some N ->
  rows N <> [] -> ids_ok N = true -> no_self_contact (rows N) -> lasting (rows N) -> no_overlap (rows N) -> is_time_grid (rows N) g ->
  compute_laplacians N g a b = Some (ka, kb, Ls) -> ka <= kb -> (0 < lamda)%R -> nearly (num_nodes_of N) lamda (between (times (rows N)) ka kb) Ls Ms ds ->
  crossed (rows N) q (between (times (rows N)) ka kb) xs -> exact kd rtol -> distribution_ok (num_nodes_of N) p1 ->
  flow_integral (num_nodes_of N) kd None (Some Ms) p1 (Some (between (times (rows N)) ka kb)) gr r rtol = Some F ->
  valid q -> num_nodes q = num_nodes_of N -> In A (f_I F) ->
  (q2r (heterogeneity (the_distribution (num_nodes_of N) p1) q) - 2 * (lamda * q2r (sumL (fun x => x) xs) + total ds) <= q2r (compute_stability A q))%R.
Proof.
  intros fuel srcs tgts starts ends N g a b ka kb Ls lamda Ms ds xs kd p1 gr r rtol F q A HN Hne Hids Hself HL HV HG E Hk Hl HM HX He Hp HI Hq Hn HA.
  refine (network_loss N g a b ka kb Ls _ Hself E Hk lamda Ms ds xs (rows N) kd p1 gr r rtol F q A Hl HM (fun i j u H => H) HX He Hp HI Hq Hn HA).
  intros a0 b0. exact (C34_laplacians fuel srcs tgts starts ends N g a0 b0 HN Hne Hids Hself HL HV HG).
Qed.
Print Assumptions C212_crossing.
(** the same for merged networks, with the contacts of the events as they were given *)
Theorem C212_merged : forall fuel srcs tgts starts ends N0 N g a b ka kb Ls lamda Ms ds xs kd p1 gr r rtol F q A,
  make_net 0 true false srcs tgts starts ends = Some N0 -> make_net fuel true true srcs tgts starts ends = Some N ->
  rows N <> [] -> ids_ok N0 = true -> no_self_contact (rows N0) -> lasting (rows N0) -> is_time_grid (rows N) g ->
  compute_laplacians N g a b = Some (ka, kb, Ls) -> ka <= kb -> (0 < lamda)%R -> nearly (num_nodes_of N) lamda (between (times (rows N)) ka kb) Ls Ms ds ->
  crossed (rows N0) q (between (times (rows N)) ka kb) xs -> exact kd rtol -> distribution_ok (num_nodes_of N) p1 ->
  flow_integral (num_nodes_of N) kd None (Some Ms) p1 (Some (between (times (rows N)) ka kb)) gr r rtol = Some F ->
  valid q -> num_nodes q = num_nodes_of N -> In A (f_I F) ->
  (q2r (heterogeneity (the_distribution (num_nodes_of N) p1) q) - 2 * (lamda * q2r (sumL (fun x => x) xs) + total ds) <= q2r (compute_stability A q))%R.
Proof.
  intros fuel srcs tgts starts ends N0 N g a b ka kb Ls lamda Ms ds xs kd p1 gr r rtol F q A HN0 HMg Hne1 Hids Hself HL HG E Hk Hl HM HX He Hp HI Hq Hn HA.
  assert (HOrd : ordered (rows N0)) by (intros e He'; specialize (HL e He'); qlra).
  destruct (proj2 (C37_sound_partial srcs tgts starts ends N0 HN0 Hids HOrd) fuel N HMg) as (EN & Hids1 & HV1 & HC1 & HT1 & HC2).
  assert (Hself1 : no_self_contact (rows N)) by (intros e He'; destruct (HT1 e He') as (f & Hf & -> & -> & _); now apply Hself).
  assert (HR : right_laplacians N g) by (intros a0 b0; exact (C34_merged fuel srcs tgts starts ends N0 N g a0 b0 HN0 Hids Hself HL HMg Hne1 HG)).
  exact (network_loss N g a b ka kb Ls HR Hself1 E Hk lamda Ms ds xs (rows N0) kd p1 gr r rtol F q A Hl HM HC1 HX He Hp HI Hq Hn HA).
Qed.
Print Assumptions C212_merged.

(** ** A concrete instance *)
(* three nodes that meet one after the other (C194), walkers that move at a rate of 1/100 *)
Definition slow (a b : nat) : mat := fun i j => if ((i =? a) && (j =? b)) || ((i =? b) && (j =? a)) then qf 1 100 else if (i =? j) then (if (i =? a) || (i =? b) then qf 99 100 else 1%num) else 0%num.
Definition mats212 : list mat := [slow 0 1; ident; slow 1 2].
Definition flow212 := flow_integral 3 Dense None (Some mats212) None (Some (between (times (rows later)) 0 3)) None false None.
Lemma coarse n M F i (x : R) : stochastic n M -> prob_matrix n F -> i < n -> (1 - x <= toR M i i)%R -> (1 - x <= F i i)%R -> (difference n (toR M) F i <= 3 * x)%R.
Proof.
  intros HM HF Hi H1 H2. assert (HS : rsum n (toR M i) = 1%R) by (unfold toR; rewrite <- q2r_sumN, (proj2 HM i Hi); apply q2r_1).
  assert (SP : forall f : nat -> R, rsum n f = (f i + rsum n (fun j => if Nat.eqb i j then 0 else f j))%R).
  { intros f. rewrite (rsum_ext n f (fun j => (if Nat.eqb i j then f i else 0) + (if Nat.eqb i j then 0 else f j))%R); [|intros j Hj; destruct (Nat.eqb_spec i j) as [<-|]; ring].
    rewrite rsum_add. f_equal. rewrite (rsum_ext n _ (fun j => reye i j * f i)%R); [|intros j Hj; unfold reye; destruct (Nat.eqb i j); ring]. exact (reye_left n (fun _ _ => f i) i i Hi). }
  unfold difference. rewrite SP. pose proof (SP (toR M i)) as S1. pose proof (SP (F i)) as S2. rewrite HS in S1. rewrite (proj2 HF i Hi) in S2.
  assert (HP : forall j, j < n -> (0 <= toR M i j)%R) by (intros j Hj; unfold toR; rewrite <- q2r_0; apply q2r_le; now apply (proj1 HM)).
  assert (N1 : (0 <= rsum n (fun j => if Nat.eqb i j then 0 else toR M i j))%R).
  { apply Rle_trans with (rsum n (fun _ => 0%R)); [rewrite rsum_const; lra|]. apply rsum_le. intros j Hj. destruct (Nat.eqb i j); [lra|now apply HP]. }
  assert (N2 : (0 <= rsum n (fun j => if Nat.eqb i j then 0 else F i j))%R).
  { apply Rle_trans with (rsum n (fun _ => 0%R)); [rewrite rsum_const; lra|]. apply rsum_le. intros j Hj. destruct (Nat.eqb i j); [lra|now apply (proj1 HF)]. }
  assert (G : (rsum n (fun j => if Nat.eqb i j then 0 else Rabs (toR M i j - F i j)) <= rsum n (fun j => if Nat.eqb i j then 0 else toR M i j) + rsum n (fun j => if Nat.eqb i j then 0 else F i j))%R).
  { rewrite <- rsum_add. apply rsum_le. intros j Hj. destruct (Nat.eqb i j); [lra|]. pose proof (HP j Hj). pose proof (proj1 HF i j Hi Hj). apply Rabs_le. lra. }
  assert (D : (Rabs (toR M i i - F i i) <= x)%R) by (apply Rabs_le; lra). lra.
Qed.
Lemma step212 k M (t : num) : k < 3 -> stochastic 3 M -> (forall i, i < 3 -> (qf 99 100 <= M i i)%num) ->
  stochastic 3 M /\ (exists F, inter_matrix 3 (q2r (t + 1 - t)%num * (1 / 100))%R (nth k laps210 ident) F /\ forall i, i < 3 -> (difference 3 (toR M) F i <= 3 / 100)%R).
Proof.
  intros Hk HM HD. split; [exact HM|]. replace (t + 1 - t)%num with 1%num by ring. rewrite q2r_1, Rmult_1_l.
  destruct (C156_walk 3 (nth k laps210 ident) (1 / 100) (laps210_walk k Hk) ltac:(lra)) as [[F HF] HC]. exists F. split; [exact HF|]. intros i Hi.
  replace (3 / 100)%R with (3 * (1 / 100))%R by field. apply (coarse 3 M F i (1 / 100) HM); [exact (proj1 (HC F HF))|exact Hi| |].
  - specialize (HD i Hi). apply q2r_le in HD. unfold toR. replace (1 - 1 / 100)%R with (q2r (qf 99 100)); [exact HD|]. unfold q2r, Q2R. cbn. lra.
  - rewrite (inter_Ex 3 (1 / 100) _ F (laps210_walk k Hk) HF i i Hi Hi). apply Ex_stays; [exact (step_prob 3 _ (laps210_walk k Hk))|lra|exact Hi].
Qed.
Lemma mats212_nearly : nearly 3 (1 / 100)%R (between (times (rows later)) 0 3) laps210 mats212 [3 / 100; 3 / 100; 3 / 100]%R.
Proof.
  assert (ET : between (times (rows later)) 0 3 = [qn 0; qn 0 + 1; qn 1 + 1; qn 2 + 1]%num) by (vm_compute; reflexivity). rewrite ET, laps210_eq. unfold mats212.
  assert (E1 : (qn 0 + 1)%num = qn 1) by (vm_compute; reflexivity). assert (E2 : (qn 1 + 1)%num = qn 2) by (vm_compute; reflexivity).
  pose proof (step212 0 (slow 0 1) (qn 0) ltac:(lia) ltac:(stoch3) ltac:(intros i Hi; below3 i Hi; discriminate)) as K0.
  pose proof (step212 1 ident (qn 1) ltac:(lia) ltac:(stoch3) ltac:(intros i Hi; below3 i Hi; discriminate)) as K1.
  pose proof (step212 2 (slow 1 2) (qn 2) ltac:(lia) ltac:(stoch3) ltac:(intros i Hi; below3 i Hi; discriminate)) as K2.
  split; [exact (proj1 K0)|]. split; [exact (proj2 K0)|]. rewrite E1. split; [exact (proj1 K1)|]. split; [exact (proj2 K1)|]. rewrite E2. split; [exact (proj1 K2)|]. split; [exact (proj2 K2)|]. exact Logic.I.
Qed.
(* the second contact crosses {0,1},{2} for one unit of time: the theorem allows a loss of 1/5 from
   the largest value 4/9 (1/50 for exact matrices); the loss is less than 1/50, and not 0 *)
Lemma crossed212 : crossed (rows later) pair_and_one (between (times (rows later)) 0 3) [0; 0; 1]%num.
Proof.
  assert (ET : between (times (rows later)) 0 3 = [qn 0; qn 1; qn 2; qn 3]) by (vm_compute; reflexivity). rewrite ET.
  assert (HI : forall i j u, (u < qn 2)%num -> contact (rows later) i j u -> together pair_and_one i j).
  { intros i j u Hu (e & He & HJ & H1 & H2). cbn [later rows map snd In] in He. destruct He as [<-|[<-|[]]]; unfold joins in HJ; cbn [ev e_src e_tgt e_start e_end] in *.
    - exists 0. destruct HJ as [[<- <-]|[<- <-]]; (split; exists [0; 1]; (split; [reflexivity|cbn; tauto])).
    - exfalso. revert H1 Hu. intros H1 Hu. exact (Qclt_not_le _ _ Hu H1). }
  split; [right; split; [reflexivity|]; intros i j u _ Hu; apply HI; eapply Qclt_trans; [exact Hu|reflexivity]|]. split; [right; split; [reflexivity|]; intros i j u _ Hu; now apply HI|].
  split; [left; vm_compute; now apply Qc_is_canon|exact Logic.I].
Qed.
Example C212_applies : make_net 0 true false [0; 1] [1; 2] [qn 0; qn 2] [qn 1; qn 3] = Some later /\ rows later <> [] /\ ids_ok later = true /\ no_self_contact (rows later) /\ lasting (rows later) /\ no_overlap (rows later) /\
  compute_laplacians later (sorted_grid (rows later)) None None = Some (0, 3, laps210) /\ nearly 3 (1 / 100)%R (between (times (rows later)) 0 3) laps210 mats212 [3 / 100; 3 / 100; 3 / 100]%R /\
  crossed (rows later) pair_and_one (between (times (rows later)) 0 3) [0; 0; 1]%num /\ (valid pair_and_one /\ num_nodes pair_and_one = 3) /\
  leaving 3 pair_and_one [0; 0; qf 1 100]%num mats212 /\
  exists A, match flow212 with Some F => f_I F = [A] | None => False end /\ heterogeneity (the_distribution 3 None) pair_and_one = qf 4 9 /\
    (qf 4 9 - qf 1 50 < compute_stability A pair_and_one)%num /\ (compute_stability A pair_and_one < qf 4 9)%num.
Proof.
  destruct C210_applies as (H1 & H2 & H3 & H4 & H5 & H6 & H7 & _). split; [exact H1|]. split; [exact H2|]. split; [exact H3|]. split; [exact H4|]. split; [exact H5|]. split; [exact H6|]. split; [exact H7|].
  split; [exact mats212_nearly|]. split; [exact crossed212|]. split; [apply valid_list, partitions210|].
  split; [repeat constructor; intros i Hi; below3 i Hi; vm_compute; discriminate|].
  destruct flow212 as [F|] eqn:E.
  2:{ assert (K : match flow212 with Some _ => true | None => false end = true) by (vm_compute; reflexivity). rewrite E in K. discriminate K. }
  assert (K : match flow212 with Some F => length (f_I F) | None => 7 end = 1) by (vm_compute; reflexivity). rewrite E in K. destruct (f_I F) as [|A [|]] eqn:EA; cbn in K; try discriminate K.
  exists A. split; [reflexivity|]. split; [vm_compute; now apply Qc_is_canon|].
  assert (KS : match flow212 with Some F => match f_I F with A :: _ => (qltb (qf 4 9 - qf 1 50) (compute_stability A pair_and_one), qltb (compute_stability A pair_and_one) (qf 4 9)) | [] => (false, false) end | None => (false, false) end = (true, true)) by (vm_compute; reflexivity).
  rewrite E, EA in KS. injection KS as KS1 KS2. split.
  - destruct (qltb_spec (qf 4 9 - qf 1 50) (compute_stability A pair_and_one)); [assumption|discriminate KS1].
  - destruct (qltb_spec (compute_stability A pair_and_one) (qf 4 9)); [assumption|discriminate KS2].
Qed.
