(** Property C215: nodes in the same position are treated alike. *)
From Coq Require Import Reals Qreals Lra Lia Permutation.
From Verif Require Import Base PartitionModel PartitionSpec PartitionProofs GapModel GapProofs LouvainModel LouvainSpec LouvainProofs SparseModel EventsModel EventsSpec LaplacianProofs MergeProofs EventsProps TransModel TransSpec MatProofs
  FlowModel FlowSpec FlowProofs FlowStabProofs FlowStabProps JoinEndProps LocalProps MeetProofs ErrorProps ExpModel ExpSpec ExpSeries ExpProps PeriodSpec PeriodProps PathSpec PathProps ContactStabProps RenameSpec CrossTimeProps BestSplitProps.
From Verif Require UnitProps MultiProofs FlowProps RenameProofs RenameProps LinErrorProps.

(** ** Specification *)
(** [s] exchanges nodes (and [t] exchanges them back), and keeps the contacts of the window *)
Definition keeps_contacts (n : nat) (tb : table) (lo hi : num) (s t : nat -> nat) : Prop :=
  renaming n s t /\ forall i j u, i < n -> j < n -> (lo <= u)%num -> (u < hi)%num -> (contact tb (s i) (s j) u <-> contact tb i j u).
(** [q] has the clusters of [p] after the exchange *)
Definition exchanged (n : nat) (s : nat -> nat) (p q : partition) : Prop := forall x y, x < n -> y < n -> (together q (s x) (s y) <-> together p x y).

(** ** Matrices that do not change *)
Lemma filter_permuted (f : nat -> bool) l l' : Permutation l l' -> Permutation (filter f l) (filter f l').
Proof.
  intros H. induction H as [|x l l' H IH|x y l|l1 l2 l3 H1 IH1 H2 IH2]; cbn [filter]; [constructor|destruct (f x); [now constructor|exact IH]|destruct (f x), (f y); try apply Permutation_refl; apply perm_swap|now apply Permutation_trans with (filter f l2)].
Qed.
Section Exchange.
Context (n : nat) (s t : nat -> nat) (HR : renaming n s t).
Lemma sym_back (R : nat -> nat -> Prop) : (forall i j, i < n -> j < n -> (R (s i) (s j) <-> R i j)) -> forall i j, i < n -> j < n -> (R (t i) (t j) <-> R i j).
Proof using HR.
  intros H i j Hi Hj. destruct (proj2 HR i Hi) as [Ti Si]. destruct (proj2 HR j Hj) as [Tj Sj]. rewrite <- (H (t i) (t j) Ti Tj), Si, Sj. tauto.
Qed.
Lemma t_eqb i j : i < n -> j < n -> (t i =? t j) = (i =? j).
Proof using HR.
  intros Hi Hj. destruct (Nat.eqb_spec i j) as [->|Hne]; [apply Nat.eqb_refl|]. apply Nat.eqb_neq. intros E. apply Hne. rewrite <- (proj2 (proj2 HR i Hi)), <- (proj2 (proj2 HR j Hj)). now rewrite E.
Qed.
Lemma degree_sym adj : (forall i j, i < n -> j < n -> adj (t i) (t j) = adj i j) -> forall i, i < n -> degree n adj (t i) = degree n adj i.
Proof using HR.
  intros H i Hi. unfold degree. assert (HP : Permutation (filter (adj (t i)) (map t (seq 0 n))) (filter (adj (t i)) (seq 0 n))) by (apply filter_permuted, (RenameProofs.perm_t n s t HR)).
  rewrite <- (Permutation_length HP). clear HP. assert (HI : forall j, In j (seq 0 n) -> j < n) by (intros j Hj; apply in_seq in Hj; lia).
  induction (seq 0 n) as [|j l IH]; [reflexivity|]. cbn [map filter]. rewrite (H i j Hi (HI j (or_introl eq_refl))). assert (IH' := IH (fun k Hk => HI k (or_intror Hk))). destruct (adj i j); cbn [length]; lia.
Qed.
Lemma laplacian_sym (R : nat -> nat -> Prop) L : walk_laplacian n R L -> (forall i j, i < n -> j < n -> (R (s i) (s j) <-> R i j)) -> eqm n L (renamed t L).
Proof using HR.
  intros (adj & Ha & HL) HS i j Hi Hj. pose proof (sym_back R HS) as HB. destruct (proj2 HR i Hi) as [Ti _]. destruct (proj2 HR j Hj) as [Tj _]. unfold renamed. rewrite (HL i j Hi Hj), (HL (t i) (t j) Ti Tj), (t_eqb i j Hi Hj).
  assert (HA : forall i j, i < n -> j < n -> adj (t i) (t j) = adj i j).
  { intros a b Hia Hib. destruct (proj2 HR a Hia) as [Ta _]. destruct (proj2 HR b Hib) as [Tb _]. apply Bool.eq_iff_eq_true. rewrite (Ha _ _ Ta Tb), (Ha _ _ Hia Hib). now apply HB. }
  unfold walk. rewrite (degree_sym adj HA i Hi), (t_eqb i j Hi Hj), (HA i j Hi Hj). reflexivity.
Qed.
Lemma rsum_sym f : rsum n (fun i => f (t i)) = rsum n f.
Proof using HR.
  unfold rsum. rewrite <- (map_map t f). assert (HP := Permutation_map f (RenameProofs.perm_t n s t HR)). induction HP as [|x l l' HP IH|x y l|l1 l2 l3 H1 IH1 H2 IH2]; cbn [fold_right]; [reflexivity|now rewrite IH|ring|congruence].
Qed.
Lemma rpow_sym M : (forall i j, i < n -> j < n -> M (t i) (t j) = M i j) -> forall k i j, i < n -> j < n -> rpow n M k (t i) (t j) = rpow n M k i j.
Proof using HR.
  intros HM. induction k as [|k IH]; intros i j Hi Hj; cbn [rpow].
  - unfold reye. now rewrite (t_eqb i j Hi Hj).
  - rewrite <- (rsum_sym (fun c => M (t i) c * rpow n M k c (t j))%R). apply rsum_ext. intros c Hc. rewrite (HM i c Hi Hc), (IH c j Hc Hj). reflexivity.
Qed.
Lemma inter_sym x L F : inter_matrix n x L F -> eqm n L (renamed t L) -> forall i j, i < n -> j < n -> F (t i) (t j) = F i j.
Proof using HR.
  intros HF HL i j Hi Hj. apply inter_expm in HF. destruct (proj2 HR i Hi) as [Ti _]. destruct (proj2 HR j Hj) as [Tj _].
  pose proof (HF i j Hi Hj) as H1. pose proof (HF (t i) (t j) Ti Tj) as H2. apply (uniqueness_sum (fun k => rpow n (scaled x L) k i j / INR (fact k))%R); [|exact H1].
  revert H2. unfold infinite_sum. intros H eps He. destruct (H eps He) as (K & HK). exists K. intros m Hm. specialize (HK m Hm). rewrite (sum_eq _ (fun k => rpow n (scaled x L) k (t i) (t j) / INR (fact k))%R); [exact HK|].
  intros k _. rewrite rpow_sym; [reflexivity| |exact Hi|exact Hj]. intros a b Hia Hib. unfold scaled, toR. pose proof (HL a b Hia Hib) as E. unfold renamed in E. now rewrite <- E.
Qed.
Lemma step_sym x L M F d : 0 < n -> stochastic n M -> inter_matrix n x L F -> eqm n L (renamed t L) -> (forall i, i < n -> (difference n (toR M) F i <= d)%R) ->
  exists e, within_error n e M (renamed t M) /\ (q2r e <= 2 * d)%R.
Proof using HR.
  intros Hn0 HM HF HL Hd. destruct (largest n (row_distance n M (renamed t M)) Hn0) as (e & He & i & Hi & ->). exists (row_distance n M (renamed t M) i). split; [exact He|].
  rewrite LinErrorProps.distance_real. destruct (proj2 HR i Hi) as [Ti _]. apply Rle_trans with (difference n (toR M) F i + difference n (toR M) F (t i))%R; [|pose proof (Hd i Hi); pose proof (Hd (t i) Ti); lra].
  unfold difference. rewrite <- (rsum_sym (fun j => Rabs (toR M (t i) j - F (t i) j))), <- rsum_add. apply rsum_le. intros j Hj. rewrite (inter_sym x L F HF HL i j Hi Hj). unfold toR, renamed.
  pose proof (Rabs_triang (q2r (M i j) - F i j) (F i j - q2r (M (t i) (t j)))) as H. replace (q2r (M i j) - F i j + (F i j - q2r (M (t i) (t j))))%R with (q2r (M i j) - q2r (M (t i) (t j)))%R in H by ring.
  rewrite (Rabs_minus_sym (F i j)) in H. exact H.
Qed.
End Exchange.

(** ** Windows *)
Lemma fits_ends n C : forall ts Ls d, fits n C ts Ls -> (hd d ts <= last ts d)%num.
Proof.
  induction ts as [|a [|b r] IH]; intros Ls d H; [destruct H|apply Qcle_refl|]. destruct Ls as [|L Ls]; [destruct H|]. rewrite fits_step in H. destruct H as (Hab & _ & _ & H).
  change (last (a :: b :: r) d) with (last (b :: r) d). cbn [hd]. apply Qcle_trans with b; [now apply Qclt_le_weak|]. exact (IH Ls d H).
Qed.
Lemma all_sym n s t lamda (C : num -> nat -> nat -> Prop) lo hi : 0 < n -> renaming n s t -> (forall i j u, i < n -> j < n -> (lo <= u)%num -> (u < hi)%num -> (C u (s i) (s j) <-> C u i j)) ->
  forall ts Ls Ms ds, (lo <= hd 0%num ts)%num -> (last ts 0%num <= hi)%num -> fits n C ts Ls -> nearly n lamda ts Ls Ms ds ->
  all_stochastic n None (Some Ms) /\ exists es, all_within n es Ms (map (renamed t) Ms) /\ (q2r (sumL (fun e => e) es) <= 2 * total ds)%R.
Proof.
  intros Hn0 HR HC. induction ts as [|a [|b r] IH]; intros Ls Ms ds Hlo Hhi HF HN; [destruct HF| |].
  - destruct Ls; [|destruct HF]. destruct Ms; [|destruct HN]. destruct ds; [|destruct HN]. split; [intros B []|]. exists []. split; [constructor|]. rewrite sumL_nil, q2r_0. cbn. lra.
  - destruct Ls as [|L Ls]; [destruct HF|]. destruct Ms as [|M Ms]; [destruct HN|]. destruct ds as [|d ds]; [destruct HN|].
    rewrite fits_step in HF. destruct HF as (Hab & HLk & HLC & HF). destruct HN as (HS & (F & HE & Hd) & HN). change (last (a :: b :: r) 0%num) with (last (b :: r) 0%num) in Hhi. cbn [hd] in Hlo.
    pose proof (fits_ends n C (b :: r) Ls 0%num HF) as Hbl. cbn [hd] in Hbl.
    destruct (IH Ls Ms ds) as (IH1 & es & IH2 & IH3); [cbn [hd]; qlra|exact Hhi|exact HF|exact HN|].
    assert (HL : eqm n L (renamed t L)). { apply (laplacian_sym n s t HR (C a)); [apply HLC; [apply Qcle_refl|exact Hab]|]. intros i j Hi Hj. apply HC; [exact Hi|exact Hj|exact Hlo|qlra]. }
    destruct (step_sym n s t HR _ L M F d Hn0 HS HE HL Hd) as (e & He & Ee).
    split; [intros B [<-|HB]; [exact HS|now apply IH1]|]. exists (e :: es). split; [now constructor|]. rewrite sumL_cons, q2r_add. cbn [total fold_right]. unfold total in IH3. lra.
Qed.

(** * C215: exchanging nodes does not change the stability if the matrices are not changed by it *)
Theorem C215_flow : forall n kd Ms p1 tl g r rtol F s t p q A, exact kd rtol -> distribution_ok n p1 -> times_ok tl -> tl <> Some [] -> all_stochastic n None (Some Ms) -> renaming n s t ->
  (forall M i j, In M Ms -> i < n -> j < n -> M (t i) (t j) = M i j) -> (forall i, i < n -> the_distribution n p1 (t i) = the_distribution n p1 i) ->
  flow_integral n kd None (Some Ms) p1 tl g r rtol = Some F -> In A (f_I F) ->
  (forall i j, i < n -> j < n -> A (t i) (t j) = A i j) /\
  (valid p -> num_nodes p = n -> valid q -> num_nodes q = n -> exchanged n s p q -> compute_stability A q = compute_stability A p /\ (best n A p <-> best n A q)).
Proof.
  intros n kd Ms p1 tl g r rtol F s t p q A He Hp Ht Htl HS HR HM Hpt HF HA.
  assert (HX : Forall2 (fun A A' => eqm n A' (renamed t A)) Ms Ms). { clear - HM. induction Ms as [|M Ms IH]; constructor; [|apply IH; intros B i j HB; apply HM; now right]. intros i j Hi Hj. unfold renamed. symmetry. apply HM; [now left|exact Hi|exact Hj]. }
  assert (HP : match p1, p1 with Some p, Some p' => forall i, i < n -> p' i = p (t i) | None, None => True | _, _ => False end) by (destruct p1 as [p'|]; [intros i Hi; symmetry; exact (Hpt i Hi)|exact Logic.I]).
  destruct (RenameProps.C192_flow n kd Ms Ms p1 p1 tl g r rtol F s t HR He Hp Ht Htl HS HX HP HF) as (F' & HF' & _ & _ & HI). rewrite HF in HF'. injection HF' as <-.
  assert (HAA : eqm n A (renamed t A)). { clear - HI HA. assert (HD : forall l : list mat, Forall2 (fun A A' => eqm n A' (renamed t A)) l l -> In A l -> eqm n A (renamed t A)); [|exact (HD _ HI HA)].
    induction l as [|B l IH]; intros H2 Hin; [destruct Hin|]. inversion H2; subst. destruct Hin as [<-|Hin]; [assumption|now apply IH]. }
  split; [intros i j Hi Hj; symmetry; exact (HAA i j Hi Hj)|]. intros Vp Np Vq Nq HE.
  assert (EQ : compute_stability A q = compute_stability A p).
  { rewrite (same_stability n q Vq Nq _ _ HAA). apply (RenameProps.C192_stability A p q s t Vp Vq); [congruence|now rewrite Np|]. rewrite Np. exact HE. }
  split; [exact EQ|]. unfold best. rewrite EQ. tauto.
Qed.
Print Assumptions C215_flow.
(** over a window with contacts that the exchange keeps, stabilities differ by at most twice the
    errors of the matrices *)
Lemma network_sym N g a b ka kb Ls : right_laplacians N g -> no_self_contact (rows N) -> compute_laplacians N g a b = Some (ka, kb, Ls) -> ka <= kb ->
  forall lamda Ms ds s t kd p1 gr r rtol F p q A, nearly (num_nodes_of N) lamda (between (times (rows N)) ka kb) Ls Ms ds ->
    keeps_contacts (num_nodes_of N) (rows N) (nth ka (times (rows N)) 0%num) (nth kb (times (rows N)) 0%num) s t ->
    exact kd rtol -> distribution_ok (num_nodes_of N) p1 -> (forall i, i < num_nodes_of N -> the_distribution (num_nodes_of N) p1 (t i) = the_distribution (num_nodes_of N) p1 i) ->
    flow_integral (num_nodes_of N) kd None (Some Ms) p1 (Some (between (times (rows N)) ka kb)) gr r rtol = Some F ->
    In A (f_I F) -> valid p -> num_nodes p = num_nodes_of N -> valid q -> num_nodes q = num_nodes_of N -> exchanged (num_nodes_of N) s p q ->
    (Rabs (q2r (compute_stability A p) - q2r (compute_stability A q)) <= 2 * total ds)%R.
Proof.
  intros HRL Hself E Hk lamda Ms ds s t kd p1 gr r rtol F p q A HM [HR HC] He Hp Hpt HF HA Vp Np Vq Nq HE. set (n := num_nodes_of N) in *.
  pose proof (network_fits N g a b ka kb Ls HRL Hself E Hk) as HFit. pose proof (fits_increasing _ _ _ Ls HFit) as Hinc. set (ts := between (times (rows N)) ka kb) in *.
  assert (Hn0 : 0 < n). { destruct n as [|n']; [|lia]. exfalso. destruct p1 as [p'|]; cbn in Hp; [|lia]. destruct Hp as [_ Hp]. discriminate Hp. }
  assert (Lb : kb < length (times (rows N))) by (destruct (HRL a b) as (ka' & kb' & Ls' & E' & _ & _ & _ & _ & Lb & _); rewrite E in E'; injection E' as <- <- <-; exact Lb).
  destruct (between_ends (times (rows N)) ka kb Hk Lb) as [B1 B2].
  destruct (all_sym n s t lamda (fun u i j => contact (rows N) i j u) _ _ Hn0 HR HC ts Ls Ms ds) as (HS & es & HW & Hes); [unfold ts; rewrite B1; apply Qcle_refl|unfold ts; rewrite B2; apply Qcle_refl|exact HFit|exact HM|].
  destruct (stored_averages _ _ _ _ _ _ _ _ _ _ He Hp (Hinc : times_ok (Some ts)) HS HF) as (ms & _ & Hin & H2).
  assert (HX : exists m, In m ms /\ eqm n A (flow_average n None (Some Ms) p1 (Some ts) r m)).
  { clear - H2 HA. induction H2 as [|B m X Y HB H2 IH]; [destruct HA|]. destruct HA as [<-|HA]; [exists m; split; [now left|exact HB]|]. destruct (IH HA) as (m' & Hm' & E'). exists m'. split; [now right|exact E']. }
  destruct HX as (m & Hm & EA). destruct (Hin m Hm) as [H0 Hm'].
  rewrite (same_stability n p Vp Np _ _ EA), (same_stability n q Vq Nq _ _ EA).
  assert (HS' : all_stochastic n None (Some (map (renamed t) Ms))) by (intros B HB; cbn [given] in HB; apply in_map_iff in HB; destruct HB as (M & <- & HB); apply (RenameProofs.renamed_stochastic n s t HR), HS; exact HB).
  assert (Es : steps_in None (Some (map (renamed t) Ms)) (Some ts) = steps_in None (Some Ms) (Some ts)) by (unfold steps_in; cbn [given]; now rewrite map_length).
  pose proof (average_gap n _ _ p1 (Some ts) r q _ m Hp Hinc HS HS' HW Vq Nq H0 Hm' Hn0) as G1.
  pose proof (average_gap n _ _ p1 (Some ts) r q _ m Hp Hinc HS' HS (all_within_sym _ _ _ _ HW) Vq Nq H0 ltac:(rewrite Es; exact Hm') Hn0) as G2.
  assert (EQ : compute_stability (flow_average n None (Some (map (renamed t) Ms)) p1 (Some ts) r m) q = compute_stability (flow_average n None (Some Ms) p1 (Some ts) r m) p).
  { rewrite <- (RenameProps.C192_stability (flow_average n None (Some Ms) p1 (Some ts) r m) p q s t Vp Vq); [|congruence|now rewrite Np|rewrite Np; exact HE].
    apply (same_stability n q Vq Nq). unfold flow_average. replace (flow_times None (Some (map (renamed t) Ms)) (Some ts) r) with (flow_times None (Some Ms) (Some ts) r) by (unfold flow_times; cbn [given]; now rewrite map_length).
    apply (RenameProofs.renamed_average n s t HR); [intros i Hi; symmetry; exact (Hpt i Hi)|]. intros k Hk'. unfold flow_transition, transition. cbn [given].
    apply (RenameProofs.renamed_chain n s t HR). apply UnitProps.Forall2_firstn. assert (HM2 : forall l, Forall2 (fun A B => eqm n B (renamed t A)) l (map (renamed t) l)) by (induction l as [|B l IH]; cbn [map]; constructor; [apply eqm_refl|exact IH]).
    unfold TransSpec.in_order. destruct r; [rewrite <- map_rev|]; apply HM2. }
  rewrite EQ in G1, G2. apply q2r_le in G1. apply q2r_le in G2. rewrite q2r_sub in G1, G2. apply Rabs_le. lra.
Qed.
Theorem C215_contacts : forall fuel srcs tgts starts ends N g a b ka kb Ls lamda Ms ds s t kd p1 gr r rtol F p q A, make_net fuel true false srcs tgts starts ends = Some N ->
  rows N <> [] -> ids_ok N = true -> no_self_contact (rows N) -> lasting (rows N) -> no_overlap (rows N) -> is_time_grid (rows N) g ->
  compute_laplacians N g a b = Some (ka, kb, Ls) -> ka <= kb -> nearly (num_nodes_of N) lamda (between (times (rows N)) ka kb) Ls Ms ds ->
  keeps_contacts (num_nodes_of N) (rows N) (nth ka (times (rows N)) 0%num) (nth kb (times (rows N)) 0%num) s t ->
  exact kd rtol -> distribution_ok (num_nodes_of N) p1 -> (forall i, i < num_nodes_of N -> the_distribution (num_nodes_of N) p1 (t i) = the_distribution (num_nodes_of N) p1 i) ->
  flow_integral (num_nodes_of N) kd None (Some Ms) p1 (Some (between (times (rows N)) ka kb)) gr r rtol = Some F ->
  In A (f_I F) -> valid p -> num_nodes p = num_nodes_of N -> valid q -> num_nodes q = num_nodes_of N -> exchanged (num_nodes_of N) s p q ->
  (Rabs (q2r (compute_stability A p) - q2r (compute_stability A q)) <= 2 * total ds)%R.
Proof.
  intros fuel srcs tgts starts ends N g a b ka kb Ls lamda Ms ds s t kd p1 gr r rtol F p q A HN Hne Hids Hself HL HV HG E Hk.
  apply (network_sym N g a b ka kb Ls); [|exact Hself|exact E|exact Hk]. intros a0 b0. exact (C34_laplacians fuel srcs tgts starts ends N g a0 b0 HN Hne Hids Hself HL HV HG).
Qed.
Print Assumptions C215_contacts.

(** ** A concrete instance *)
(* the first two units of time of three nodes that meet one after the other (C194): 0 and 1 meet, and
   exchanging them changes nothing; walkers that move at a rate of 1/100 *)
Definition swap01 (i : nat) : nat := match i with 0 => 1 | 1 => 0 | _ => i end.
Definition mats215 : list mat := [slow 0 1; ident].
Definition flow215 := flow_integral 3 Dense None (Some mats215) None (Some (between (times (rows later)) 0 2)) None false None.
Definition one_with_2 : partition := part_of_list 3 [[0]; [1; 2]].
Definition zero_with_2 : partition := part_of_list 3 [[1]; [0; 2]].
Lemma swap_renaming : renaming 3 swap01 swap01.
Proof. split; intros i Hi; below3 i Hi; split; try reflexivity; cbn; lia. Qed.
Lemma mats215_nearly : nearly 3 (1 / 100)%R (between (times (rows later)) 0 2) laps213 mats215 [3 / 100; 3 / 100]%R.
Proof.
  assert (ET : between (times (rows later)) 0 2 = [qn 0; qn 0 + 1; qn 1 + 1]%num) by (vm_compute; reflexivity). rewrite ET, laps213_eq. unfold mats215.
  assert (E1 : (qn 0 + 1)%num = qn 1) by (vm_compute; reflexivity).
  assert (EQ : forall k x F, k < 2 -> inter_matrix 3 x (nth k laps210 ident) F -> inter_matrix 3 x (nth k laps213 ident) F).
  { intros k x F Hk HF. assert (HE : same_entries (nth k laps213 ident) (nth k laps210 ident) = true) by (destruct k as [|[|k]]; [vm_compute; reflexivity|vm_compute; reflexivity|lia]). pose proof (same_entries_eq _ _ HE) as EQ.
    apply inter_expm in HF. apply inter_expm. revert HF. apply expm_ext; [|intros i j _ _; reflexivity]. intros i j Hi Hj. unfold scaled, toR. now rewrite (EQ i j Hi Hj). }
  pose proof (step212 0 (slow 0 1) (qn 0) ltac:(lia) ltac:(stoch3) ltac:(intros i Hi; below3 i Hi; discriminate)) as (_ & F0 & I0 & D0).
  pose proof (step212 1 ident (qn 1) ltac:(lia) ltac:(stoch3) ltac:(intros i Hi; below3 i Hi; discriminate)) as (_ & F1 & I1 & D1).
  split; [stoch3|]. split; [exists F0; split; [apply EQ; [lia|exact I0]|exact D0]|]. rewrite E1. split; [stoch3|]. split; [exists F1; split; [apply EQ; [lia|exact I1]|exact D1]|]. exact Logic.I.
Qed.
Lemma keeps215 : keeps_contacts 3 (rows later) (qn 0) (qn 2) swap01 swap01.
Proof.
  split; [exact swap_renaming|]. assert (H : forall i j u, (u < qn 2)%num -> contact (rows later) i j u -> contact (rows later) (swap01 i) (swap01 j) u).
  { intros i j u Hu (e & He & HJ & H1 & H2). cbn [later rows map snd In] in He. destruct He as [<-|[<-|[]]].
    - exists (ev 0 1 0 1). split; [cbn; now left|]. split; [|now split]. unfold joins in *. cbn [ev e_src e_tgt] in *. destruct HJ as [[<- <-]|[<- <-]]; cbn; tauto.
    - exfalso. exact (Qclt_not_le _ _ Hu H1). }
  intros i j u Hi Hj _ Hu. split; [|apply H; exact Hu]. intros Hc. apply (H _ _ _ Hu) in Hc. destruct (proj1 swap_renaming i Hi) as [_ E1]. destruct (proj1 swap_renaming j Hj) as [_ E2]. now rewrite E1, E2 in Hc.
Qed.
Example C215_applies : make_net 0 true false [0; 1] [1; 2] [qn 0; qn 2] [qn 1; qn 3] = Some later /\ compute_laplacians later (sorted_grid (rows later)) None (Some (qn 2)) = Some (0, 2, laps213) /\
  nearly 3 (1 / 100)%R (between (times (rows later)) 0 2) laps213 mats215 [3 / 100; 3 / 100]%R /\
  keeps_contacts 3 (rows later) (nth 0 (times (rows later)) 0%num) (nth 2 (times (rows later)) 0%num) swap01 swap01 /\ ~ keeps_contacts 3 (rows later) (qn 0) (qn 3) swap01 swap01 /\
  (valid one_with_2 /\ num_nodes one_with_2 = 3) /\ (valid zero_with_2 /\ num_nodes zero_with_2 = 3) /\ exchanged 3 swap01 one_with_2 zero_with_2 /\
  (forall M i j, In M mats215 -> i < 3 -> j < 3 -> M (swap01 i) (swap01 j) = M i j) /\ all_stochastic 3 None (Some mats215) /\
  match flow215 with Some F => length (f_I F) = 1 | None => False end.
Proof.
  destruct C213_applies as (H1 & _ & _ & _ & _ & _ & H2 & _). split; [exact H1|]. split; [exact H2|]. split; [exact mats215_nearly|].
  assert (E0 : nth 0 (times (rows later)) 0%num = qn 0) by (vm_compute; reflexivity). assert (E2 : nth 2 (times (rows later)) 0%num = qn 2) by (vm_compute; reflexivity).
  split; [rewrite E0, E2; exact keeps215|]. split.
  { intros [_ H]. assert (HC : contact (rows later) 1 2 (qn 2)) by (exists (ev 1 2 2 3); split; [cbn; tauto|]; split; [left; split; reflexivity|split; [discriminate|reflexivity]]).
    apply (H 1 2 (qn 2)) in HC; [|lia|lia|discriminate|reflexivity]. destruct HC as (e & He & HJ & _). cbn [later rows map snd In] in He. destruct He as [<-|[<-|[]]]; unfold joins in HJ; cbn in HJ; lia. }
  split; [apply valid_list, partitionsb_sound; reflexivity|]. split; [apply valid_list, partitionsb_sound; reflexivity|].
  split.
  { intros x y Hx Hy. rewrite <- !sameb_together. below3 x Hx; below3 y Hy; vm_compute; tauto. }
  split.
  { intros M i j HM Hi Hj. destruct HM as [<-|[<-|[]]]; below3 i Hi; below3 j Hj; reflexivity. }
  split; [intros B [<-|[<-|[]]]; stoch3|]. vm_compute. reflexivity.
Qed.
