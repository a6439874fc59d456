(** Property C214: slow walkers leave every node in its own cluster. *)
From Coq Require Import Reals Qreals Lra Lia.
From Verif Require Import Base PartitionModel PartitionSpec PartitionProofs GapModel GapProofs LouvainModel LouvainSpec LouvainProofs SparseModel EventsModel EventsSpec LaplacianProofs MergeProofs EventsProps TransModel TransSpec MatProofs
  FlowModel FlowSpec FlowProofs FlowStabProofs FlowStabProps JoinEndProps LocalProps MeetProofs ErrorProps ExpModel ExpSpec ExpSeries ExpProps PeriodSpec PeriodProps PathSpec PathProps ContactStabProps CrossTimeProps BestSplitProps.
From Verif Require MultiProofs FlowProps.

(** ** Specification *)
(** in step k every walker stays at its node, but for a probability of at most the k-th number *)
Definition staying (n : nat) (es : list num) (Ms : list mat) : Prop := Forall2 (fun e M => forall i, i < n -> (1 - e <= M i i)%num) es Ms.
(** the lengths of the steps during which some contact takes place; 0 for the other ones *)
Fixpoint busy (t : table) (ts xs : list num) : Prop :=
  match ts, xs with
  | [_], [] => True
  | a :: (b :: _) as r, x :: xs => (x = (b - a)%num \/ (x = 0%num /\ forall i j u, (a <= u)%num -> (u < b)%num -> ~ contact t i j u)) /\ busy t r xs
  | _, _ => False
  end.

(** ** The partition into single nodes *)
Lemma default_same n i j : i < n -> sameb (part_default n) i j = (i =? j).
Proof.
  intros Hi. destruct (Nat.eqb_spec i j) as [<-|Hne].
  - apply sameb_together, (valid_self _ i (default_valid n)). exact Hi.
  - destruct (sameb (part_default n) i j) eqn:E; [|reflexivity]. exfalso. apply Hne. apply sameb_together in E. exact (MultiProofs.default_together n i j E).
Qed.
Lemma default_leaves n M i : stochastic n M -> i < n -> leaves n (part_default n) M i = (1 - M i i)%num.
Proof.
  intros HM Hi. unfold leaves. rewrite <- (proj2 HM i Hi). assert (E : sumN n (M i) = (sumN n (fun j => if i =? j then M i i else 0) + sumN n (fun j => if sameb (part_default n) i j then 0 else M i j))%num).
  { rewrite <- sumN_add. apply sumN_ext. intros j Hj. rewrite (default_same n i j Hi). destruct (Nat.eqb_spec i j) as [<-|]; ring. }
  rewrite E, (sum_at n i (M i i) Hi). ring.
Qed.
Lemma heterogeneity_stability (p : nat -> num) q : heterogeneity p q = (1 - compute_stability (fun i j => p i * p j)%num q)%num.
Proof.
  unfold heterogeneity. rewrite stability_eq. rewrite (sumL_ext (fun c => starts_in p c * starts_in p c)%num (fun c => block (fun i j => p i * p j)%num c c)); [reflexivity|]. intros c _. unfold starts_in, block. rewrite sumL_prod. reflexivity.
Qed.
Lemma two_terms n (h : nat -> num) x y : x < n -> y < n -> x <> y -> (forall i, i < n -> (0 <= h i)%num) -> (h x + h y <= sumN n h)%num.
Proof.
  intros Hx Hy Hne H0. rewrite <- (sum_at n x (h x) Hx), <- (sum_at n y (h y) Hy) at 1. rewrite <- sumN_add. apply sumL_le. intros i Hi. apply seq_In_iff in Hi. specialize (H0 i Hi).
  destruct (Nat.eqb_spec x i) as [Ex|], (Nat.eqb_spec y i) as [Ey|]; subst; try (elim Hne; reflexivity); revert H0; generalize (h i); intros; qlra.
Qed.
Lemma one_term n (h : nat -> num) x : x < n -> (forall i, i < n -> (0 <= h i)%num) -> (h x <= sumN n h)%num.
Proof. intros Hx H0. apply (sumL_nonneg_term h); [|now apply seq_In_iff]. intros a Ha. apply H0. now apply seq_In_iff in Ha. Qed.
Lemma joining_costs n (p : nat -> num) q x y : (forall i, i < n -> (0 <= p i)%num) -> valid q -> num_nodes q = n -> x < n -> y < n -> x <> y -> together q x y ->
  (heterogeneity p q + (p x * p y + p x * p y) <= heterogeneity p (part_default n))%num.
Proof.
  intros Hp Hq Hn Hx Hy Hne HT. rewrite !heterogeneity_stability, (stability_spec _ q Hq), (stability_spec _ _ (default_valid n)). unfold stability. change (num_nodes (part_default n)) with n. rewrite Hn.
  set (g := fun i j => if sameb q i j && negb (i =? j) then (p i * p j)%num else 0%num).
  assert (G0 : forall i j, i < n -> j < n -> (0 <= g i j)%num) by (intros i j Hi Hj; unfold g; destruct (sameb q i j && negb (i =? j)); [apply qmult_nonneg; now apply Hp|discriminate]).
  assert (E : sumN n (fun i => sumN n (fun j => if sameb q i j then (p i * p j)%num else 0%num)) =
    (sumN n (fun i => sumN n (fun j => if sameb (part_default n) i j then (p i * p j)%num else 0%num)) + sumN n (fun i => sumN n (g i)))%num).
  { rewrite <- sumN_add. apply sumN_ext. intros i Hi. rewrite <- sumN_add. apply sumN_ext. intros j Hj. unfold g. rewrite (default_same n i j Hi). destruct (Nat.eqb_spec i j) as [<-|].
    - assert (HS : sameb q i i = true) by (apply sameb_together, (valid_self q i Hq); now rewrite Hn). rewrite HS. cbn [andb negb]. ring.
    - destruct (sameb q i j); cbn [andb negb]; ring. }
  assert (HG : (g x y + g y x <= sumN n (fun i => sumN n (g i)))%num).
  { apply Qcle_trans with (sumN n (g x) + sumN n (g y))%num.
    - apply Qcplus_le_compat; apply one_term; try assumption; intros j Hj; now apply G0.
    - apply (two_terms n (fun i => sumN n (g i)) x y Hx Hy Hne). intros i Hi. apply sumN_nonneg. intros j Hj. now apply G0. }
  assert (HT' : together q y x) by (destruct HT as (c & A1 & A2); now exists c). apply sameb_together in HT, HT'.
  unfold g in HG at 1 2. rewrite HT, HT' in HG. destruct (Nat.eqb_spec x y) as [|_]; [contradiction|]. destruct (Nat.eqb_spec y x) as [E'|_]; [elim Hne; now symmetry|]. cbn [andb negb] in HG.
  rewrite E. rewrite (Qcmult_comm (p y) (p x)) in HG. revert HG. generalize (p x * p y)%num (sumN n (fun i => sumN n (g i))) (sumN n (fun i => sumN n (fun j => if sameb (part_default n) i j then (p i * p j)%num else 0%num))). intros; qlra.
Qed.
Lemma best_alone n A (p : nat -> num) (x : num) q : (forall i, i < n -> (0 <= p i)%num) -> best n A q -> (forall q', valid q' -> num_nodes q' = n -> (compute_stability A q' <= heterogeneity p q')%num) ->
  (heterogeneity p (part_default n) - (x + x) <= compute_stability A (part_default n))%num -> forall i j, together q i j -> i <> j -> (p i * p j <= x)%num.
Proof.
  intros Hp (Hq & Hn & HB) HU HD i j HT Hne. destruct (together_lt q i j Hq HT) as [Hi Hj]. rewrite Hn in Hi, Hj.
  pose proof (joining_costs n p q i j Hp Hq Hn Hi Hj Hne HT) as HC. pose proof (HB (part_default n) (default_valid n) eq_refl) as H1. pose proof (HU q Hq Hn) as H2.
  revert HC H1 H2 HD. generalize (heterogeneity p q) (heterogeneity p (part_default n)) (compute_stability A q) (compute_stability A (part_default n)) (p i * p j)%num. intros; qlra.
Qed.

(** * C214: two nodes of a cluster of a best partition: the product of their probabilities is at
    most the sum of the probabilities to leave a node in a step *)
Theorem C214_flow : forall n kd Ms es p1 tl g r rtol F q A, exact kd rtol -> distribution_ok n p1 -> times_ok tl -> all_stochastic n None (Some Ms) -> staying n es Ms ->
  flow_integral n kd None (Some Ms) p1 tl g r rtol = Some F -> In A (f_I F) -> best n A q ->
  forall i j, together q i j -> i <> j -> (the_distribution n p1 i * the_distribution n p1 j <= sumL (fun e => e) es)%num.
Proof.
  intros n kd Ms es p1 tl g r rtol F q A He Hp Ht HS HE HF HA HB. apply (best_alone n A (the_distribution n p1) _ q); [exact (proj1 (the_distribution_ok n p1 Hp))|exact HB| |].
  - intros q' Hq' Hn'. exact (proj2 (C187_bounds n kd None (Some Ms) p1 tl g r rtol F q' A He Hp Ht HS HF Hq' Hn' HA)).
  - refine (C212_leaving n kd Ms es p1 tl g r rtol F (part_default n) A He Hp Ht HS _ HF (default_valid n) eq_refl HA).
    clear - HE HS. unfold all_stochastic in HS. cbn [given] in HS. induction HE as [|e M es Ms H HE IH]; constructor.
    + intros i Hi. rewrite (default_leaves n M i (HS M (or_introl eq_refl)) Hi). specialize (H i Hi). revert H. generalize (M i i). intros; qlra.
    + apply IH. intros B HB. apply HS. now right.
Qed.
Print Assumptions C214_flow.

(** ** Contacts *)
Lemma busy_crossed t n : forall ts xs, busy t ts xs -> crossed t (part_default n) ts xs.
Proof.
  induction ts as [|a [|b r] IH]; intros xs H; [exact H|exact H|]. destruct xs as [|x xs]; [exact H|]. destruct H as [H1 H2]. split; [|exact (IH xs H2)].
  destruct H1 as [H1|[H1 H3]]; [now left|right]. split; [exact H1|]. intros i j u A1 A2 Hc. exfalso. exact (H3 i j u A1 A2 Hc).
Qed.
Lemma network_alone N g a b ka kb Ls : right_laplacians N g -> no_self_contact (rows N) -> compute_laplacians N g a b = Some (ka, kb, Ls) -> ka <= kb ->
  forall lamda Ms ds xs t kd p1 gr r rtol F q A, (0 < lamda)%R -> nearly (num_nodes_of N) lamda (between (times (rows N)) ka kb) Ls Ms ds ->
    (forall i j u, contact (rows N) i j u -> contact t i j u) -> busy t (between (times (rows N)) ka kb) xs ->
    exact kd rtol -> distribution_ok (num_nodes_of N) p1 ->
    flow_integral (num_nodes_of N) kd None (Some Ms) p1 (Some (between (times (rows N)) ka kb)) gr r rtol = Some F ->
    In A (f_I F) -> best (num_nodes_of N) A q -> forall i j, together q i j -> i <> j ->
    (q2r (the_distribution (num_nodes_of N) p1 i * the_distribution (num_nodes_of N) p1 j)%num <= lamda * q2r (sumL (fun x => x) xs) + total ds)%R.
Proof.
  intros HR Hself E Hk lamda Ms ds xs t kd p1 gr r rtol F q A Hl HM Ht HX He Hp HI HA HB i j HT Hne. set (n := num_nodes_of N) in *. set (p := the_distribution n p1) in *.
  pose proof (network_fits N g a b ka kb Ls HR Hself E Hk) as HF. pose proof (fits_increasing _ _ _ Ls HF) as Hinc.
  assert (Hn0 : 0 < n). { destruct n as [|n']; [|lia]. exfalso. destruct p1 as [p'|]; cbn in Hp; [|lia]. destruct Hp as [_ Hp]. discriminate Hp. }
  pose proof (network_loss N g a b ka kb Ls HR Hself E Hk lamda Ms ds xs t kd p1 gr r rtol F (part_default n) A Hl HM Ht (busy_crossed t n _ _ HX) He Hp HI (default_valid n) eq_refl HA) as HD.
  destruct HB as (Hq & Hn & HB). destruct (together_lt q i j Hq HT) as [Hi Hj]. rewrite Hn in Hi, Hj.
  assert (HS : all_stochastic n None (Some Ms)).
  { destruct (all_leave n lamda (rows N) (part_default n) Hn0 (default_valid n) eq_refl Hl _ Ls Ms ds xs HF HM) as (HS & _); [|exact HS]. apply busy_crossed. clear - Ht HX. revert xs HX.
    induction (between (times (rows N)) ka kb) as [|x [|y l] IH]; intros [|z xs] HX; try exact HX. destruct HX as [H1 H2]. split; [|exact (IH xs H2)].
    destruct H1 as [H1|[H1 H3]]; [now left|right]. split; [exact H1|]. intros i j u A1 A2 Hc. exact (H3 i j u A1 A2 (Ht i j u Hc)). }
  pose proof (joining_costs n p q i j (proj1 (the_distribution_ok n p1 Hp)) Hq Hn Hi Hj Hne HT) as HC. pose proof (HB (part_default n) (default_valid n) eq_refl) as H1.
  pose proof (proj2 (C187_bounds n kd None (Some Ms) p1 (Some (between (times (rows N)) ka kb)) gr r rtol F q A He Hp Hinc HS HI Hq Hn HA)) as H2.
  assert (H3 : (heterogeneity p (part_default n) - (p i * p j + p i * p j) >= compute_stability A (part_default n))%num).
  { revert HC H1 H2. unfold p. generalize (heterogeneity (the_distribution n p1) q) (heterogeneity (the_distribution n p1) (part_default n)) (compute_stability A q) (compute_stability A (part_default n)) (the_distribution n p1 i * the_distribution n p1 j)%num. intros; qlra. }
  apply q2r_le in H3. rewrite q2r_sub, q2r_add in H3. fold n p in HD. lra.
Qed.
(** over a window: at most the rate times the time during which some contact takes place, and the
    errors of the matrices *)
Theorem C214_contacts : forall fuel srcs tgts starts ends N g a b ka kb Ls lamda Ms ds xs kd p1 gr r rtol F q A, make_net fuel true false srcs tgts starts ends = Some N ->
  rows N <> [] -> ids_ok N = true -> no_self_contact (rows N) -> lasting (rows N) -> no_overlap (rows N) -> is_time_grid (rows N) g ->
  compute_laplacians N g a b = Some (ka, kb, Ls) -> ka <= kb -> (0 < lamda)%R -> nearly (num_nodes_of N) lamda (between (times (rows N)) ka kb) Ls Ms ds ->
  busy (rows N) (between (times (rows N)) ka kb) xs -> exact kd rtol -> distribution_ok (num_nodes_of N) p1 ->
  flow_integral (num_nodes_of N) kd None (Some Ms) p1 (Some (between (times (rows N)) ka kb)) gr r rtol = Some F -> In A (f_I F) -> best (num_nodes_of N) A q ->
  forall i j, together q i j -> i <> j ->
    (q2r (the_distribution (num_nodes_of N) p1 i * the_distribution (num_nodes_of N) p1 j)%num <= lamda * q2r (sumL (fun x => x) xs) + total ds)%R.
Proof.
  intros fuel srcs tgts starts ends N g a b ka kb Ls lamda Ms ds xs kd p1 gr r rtol F q A HN Hne Hids Hself HL HV HG E Hk Hl HM HX He Hp HI HA HB.
  refine (network_alone N g a b ka kb Ls _ Hself E Hk lamda Ms ds xs (rows N) kd p1 gr r rtol F q A Hl HM (fun i j u H => H) HX He Hp HI HA HB).
  intros a0 b0. exact (C34_laplacians fuel srcs tgts starts ends N g a0 b0 HN Hne Hids Hself HL HV HG).
Qed.
Print Assumptions C214_contacts.
(** the same for merged networks *)
Theorem C214_merged : forall fuel srcs tgts starts ends N0 N g a b ka kb Ls lamda Ms ds xs kd p1 gr r rtol F q A,
  make_net 0 true false srcs tgts starts ends = Some N0 -> make_net fuel true true srcs tgts starts ends = Some N ->
  rows N <> [] -> ids_ok N0 = true -> no_self_contact (rows N0) -> lasting (rows N0) -> is_time_grid (rows N) g ->
  compute_laplacians N g a b = Some (ka, kb, Ls) -> ka <= kb -> (0 < lamda)%R -> nearly (num_nodes_of N) lamda (between (times (rows N)) ka kb) Ls Ms ds ->
  busy (rows N0) (between (times (rows N)) ka kb) xs -> exact kd rtol -> distribution_ok (num_nodes_of N) p1 ->
  flow_integral (num_nodes_of N) kd None (Some Ms) p1 (Some (between (times (rows N)) ka kb)) gr r rtol = Some F -> In A (f_I F) -> best (num_nodes_of N) A q ->
  forall i j, together q i j -> i <> j ->
    (q2r (the_distribution (num_nodes_of N) p1 i * the_distribution (num_nodes_of N) p1 j)%num <= lamda * q2r (sumL (fun x => x) xs) + total ds)%R.
Proof.
  intros fuel srcs tgts starts ends N0 N g a b ka kb Ls lamda Ms ds xs kd p1 gr r rtol F q A HN0 HMg Hne1 Hids Hself HL HG E Hk Hl HM HX He Hp HI HA HB.
  assert (HOrd : ordered (rows N0)) by (intros e He'; specialize (HL e He'); qlra).
  destruct (proj2 (C37_sound_partial srcs tgts starts ends N0 HN0 Hids HOrd) fuel N HMg) as (EN & Hids1 & HV1 & HC1 & HT1 & HC2).
  assert (Hself1 : no_self_contact (rows N)) by (intros e He'; destruct (HT1 e He') as (f & Hf & -> & -> & _); now apply Hself).
  assert (HR : right_laplacians N g) by (intros a0 b0; exact (C34_merged fuel srcs tgts starts ends N0 N g a0 b0 HN0 Hids Hself HL HMg Hne1 HG)).
  exact (network_alone N g a b ka kb Ls HR Hself1 E Hk lamda Ms ds xs (rows N0) kd p1 gr r rtol F q A Hl HM HC1 HX He Hp HI HA HB).
Qed.
Print Assumptions C214_merged.
(** walkers that start anywhere and move slowly: every node alone is the only best partition *)
Theorem C214_alone : forall n kd Ms es tl g r rtol F A, exact kd rtol -> 0 < n -> times_ok tl -> all_stochastic n None (Some Ms) -> staying n es Ms ->
  (sumL (fun e => e) es < 1 / qn n * (1 / qn n))%num -> flow_integral n kd None (Some Ms) None tl g r rtol = Some F -> In A (f_I F) ->
  best n A (part_default n) /\ forall q, best n A q -> forall i j, together q i j -> i = j.
Proof.
  intros n kd Ms es tl g r rtol F A He Hn Ht HS HE HX HF HA.
  assert (HU : forall q, best n A q -> forall i j, together q i j -> i = j).
  { intros q HB i j HT. destruct (Nat.eq_dec i j) as [E|Hne]; [exact E|]. exfalso. apply (Qclt_not_le _ _ HX). exact (C214_flow n kd Ms es None tl g r rtol F q A He Hn Ht HS HE HF HA HB i j HT Hne). }
  split; [|exact HU]. destruct (C213_exists n A) as (q & HB). pose proof (HU q HB) as HQ. destruct HB as (Hq & Hnq & HB).
  split; [exact (default_valid n)|]. split; [reflexivity|]. intros q' Hq' Hn'.
  assert (HT : forall y z, together (part_default n) y z <-> together q y z).
  { intros y z. split; intros H.
    - destruct (together_lt _ y z (default_valid n) H) as [Hy _]. rewrite <- (MultiProofs.default_together n y z H). apply (valid_self q y Hq). now rewrite Hnq.
    - destruct (together_lt q y z Hq H) as [Hy _]. rewrite Hnq in Hy. rewrite <- (HQ y z H). exact (valid_self _ y (default_valid n) Hy). }
  rewrite (stability_spec A _ (default_valid n)), (same_together_stability A (part_default n) q (eq_sym Hnq) HT), <- (stability_spec A q Hq). now apply HB.
Qed.
Print Assumptions C214_alone.

(** ** A concrete instance *)
(* three nodes that meet one after the other, walkers that move at a rate of 1/100 (C212): contacts
   take place for two of three units of time, and 2/100 + 9/100 is less than 1/9 *)
Lemma busy212 : busy (rows later) (between (times (rows later)) 0 3) [1; 0; 1]%num.
Proof.
  assert (ET : between (times (rows later)) 0 3 = [qn 0; qn 1; qn 2; qn 3]) by (vm_compute; reflexivity). rewrite ET.
  split; [left; vm_compute; now apply Qc_is_canon|]. split.
  - right. split; [reflexivity|]. intros i j u A1 A2 (e & He & HJ & H1 & H2). cbn [later rows map snd In] in He. destruct He as [<-|[<-|[]]]; cbn [ev e_src e_tgt e_start e_end] in *.
    + exact (Qclt_not_le _ _ H2 A1).
    + exact (Qclt_not_le _ _ A2 H1).
  - split; [left; vm_compute; now apply Qc_is_canon|exact Logic.I].
Qed.
Example C214_applies : make_net 0 true false [0; 1] [1; 2] [qn 0; qn 2] [qn 1; qn 3] = Some later /\ rows later <> [] /\ ids_ok later = true /\ no_self_contact (rows later) /\ lasting (rows later) /\ no_overlap (rows later) /\
  compute_laplacians later (sorted_grid (rows later)) None None = Some (0, 3, laps210) /\ nearly 3 (1 / 100)%R (between (times (rows later)) 0 3) laps210 mats212 [3 / 100; 3 / 100; 3 / 100]%R /\
  busy (rows later) (between (times (rows later)) 0 3) [1; 0; 1]%num /\ (1 / 100 * q2r (sumL (fun x => x) [1; 0; 1]%num) + total [3 / 100; 3 / 100; 3 / 100] < q2r (1 / qn 3 * (1 / qn 3))%num)%R /\
  staying 3 [qf 1 100; 0; qf 1 100]%num mats212 /\ all_stochastic 3 None (Some mats212) /\ (sumL (fun e => e) [qf 1 100; 0; qf 1 100]%num < 1 / qn 3 * (1 / qn 3))%num /\
  exists A, match flow212 with Some F => f_I F = [A] | None => False end /\ best 3 A (part_default 3).
Proof.
  destruct C212_applies as (H1 & H2 & H3 & H4 & H5 & H6 & H7 & H8 & _). split; [exact H1|]. split; [exact H2|]. split; [exact H3|]. split; [exact H4|]. split; [exact H5|]. split; [exact H6|]. split; [exact H7|].
  split; [exact H8|]. split; [exact busy212|]. split.
  { replace (sumL (fun x => x) [1; 0; 1]%num) with (qn 2) by (vm_compute; now apply Qc_is_canon). unfold total, q2r, Q2R. cbn. lra. }
  assert (HS : all_stochastic 3 None (Some mats212)) by (intros B [<-|[<-|[<-|[]]]]; stoch3).
  assert (HE : staying 3 [qf 1 100; 0; qf 1 100]%num mats212) by (repeat constructor; intros i Hi; below3 i Hi; vm_compute; discriminate).
  assert (HX : (sumL (fun e => e) [qf 1 100; 0; qf 1 100]%num < 1 / qn 3 * (1 / qn 3))%num) by reflexivity.
  split; [exact HE|]. split; [exact HS|]. split; [exact HX|].
  destruct flow212 as [F|] eqn:E.
  2:{ assert (K : match flow212 with Some _ => true | None => false end = true) by (vm_compute; reflexivity). rewrite E in K. discriminate K. }
  assert (K : match flow212 with Some F => length (f_I F) | None => 7 end = 1) by (vm_compute; reflexivity). rewrite E in K. destruct (f_I F) as [|A [|]] eqn:EA; cbn in K; try discriminate K.
  exists A. split; [reflexivity|]. unfold flow212 in E.
  refine (proj1 (C214_alone 3 Dense mats212 [qf 1 100; 0; qf 1 100]%num _ None false None F A _ ltac:(lia) _ HS HE HX E _)); [now left| |rewrite EA; now left].
  assert (ET : between (times (rows later)) 0 3 = [qn 0; qn 1; qn 2; qn 3]) by (vm_compute; reflexivity). rewrite ET. apply FlowProps.increasing_sorted. repeat constructor.
Qed.
