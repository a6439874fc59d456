(** Property C209: which clusters keep their static stability as the Markov time grows. *)
From Coq Require Import Reals Lra Lia.
From Verif Require Import Base GapModel GapProofs LouvainModel LouvainSpec EventsModel EventsSpec TransModel TransSpec MatProofs
  StaticModel StaticSpec StaticProofs StaticProps ExpModel ExpSpec ExpSeries ExpLimit ExpProps StaticTimeModel StaticTimeProps.
Local Open Scope R_scope.

(** ** Specification: an edge between two nodes; a network in which every node can be reached *)
Definition edge (A : mat) (i j : nat) : Prop := A i j <> 0%num.
Definition connected (n : nat) (A : mat) : Prop := forall i j, (i < n)%nat -> (j < n)%nat -> reaches n (edge A) i j.
(** what a partition has at time 0: two walkers at equilibrium are in different clusters *)
Definition apart (n m : nat) (A : mat) (lab : nat -> nat) : R := 1 - rsum m (fun k => cluster_share n A lab k * cluster_share n A lab k).
(** the probability that a walker at equilibrium has changed its cluster *)
Definition changed (n : nat) (A : mat) (F : rmat) (lab : nat -> nat) : R :=
  rsum n (fun i => rsum n (fun j => if Nat.eqb (lab i) (lab j) then 0 else share n A i * F i j)).

Section Network.
Context (n : nat) (A : mat) (HN : network n A) (HU : undirected n A).
Notation T := (step_of (mminus ident (Tstat n A))).
Lemma T_edge i j : (i < n)%nat -> (j < n)%nat -> edge A i j -> 0 < T i j.
Proof using HN.
  intros Hi Hj HA. rewrite T_entry, <- q2r_0. apply q2r_lt. destruct HN as [A0 _]. destruct (Tstat_walks n A A0 i j Hi Hj) as [HW _].
  assert (HS : strength n A i <> 0%num) by (intros E; apply HA; now apply (zero_row n A A0)).
  specialize (HW HS). assert (HT := walks_stochastic n A A0 _ (Tstat_walks n A A0)). destruct HT as [W0 _].
  destruct (qle_lt_or_eq _ _ (W0 i j Hi Hj)) as [L|L]; [exact L|]. exfalso. apply HA. rewrite <- HW, <- L. ring.
Qed.
Lemma edge_T i j : (i < n)%nat -> (j < n)%nat -> i <> j -> 0 < T i j -> edge A i j.
Proof using HN.
  intros Hi Hj Hne HT HA. rewrite T_entry in HT. destruct HN as [A0 _]. destruct (Tstat_walks n A A0 i j Hi Hj) as [H1 H2].
  destruct (Qc_eq_dec (strength n A i) 0%num) as [E|E].
  - rewrite (H2 E) in HT. destruct (Nat.eqb_spec i j) as [|_]; [contradiction|]. rewrite q2r_0 in HT. lra.
  - specialize (H1 E). rewrite HA in H1. assert (Z : Tstat n A i j = 0%num).
    { destruct (Qcmult_integral _ _ H1) as [Z|Z]; [contradiction|exact Z]. }
    rewrite Z, q2r_0 in HT. lra.
Qed.
Lemma edge_strength i j : (i < n)%nat -> (j < n)%nat -> edge A i j -> 0 < share n A i.
Proof using HN.
  intros Hi Hj HA. unfold share. assert (HT := q2r_lt _ _ (total_positive n A HN)). rewrite q2r_0 in HT.
  apply Rdiv_lt_0_compat; [|exact HT]. rewrite <- q2r_0. apply q2r_lt. destruct HN as [A0 _].
  destruct (qle_lt_or_eq _ _ (strength_nonneg n A A0 i Hi)) as [L|L]; [exact L|]. exfalso. apply HA. now apply (zero_row n A A0).
Qed.
Lemma real_changed eig m lab t M : labelled n m lab -> 0 <= t -> static_real n eig A t M ->
  stability_of n M lab = apart n m A lab - changed n A (Ex n T t) lab.
Proof using HN.
  intros Hl Ht HM. unfold apart. replace (rsum m (fun k => cluster_share n A lab k * cluster_share n A lab k)) with
    (rsum n (fun i => rsum n (fun j => if Nat.eqb (lab i) (lab j) then share n A i * share n A j else 0))) by exact (squares n m lab Hl (share n A) (share n A)).
  assert (E1 : rsum n (fun i => rsum n (fun j => share n A i * Ex n T t i j)) = 1).
  { rewrite <- (p_sum n A HN). apply rsum_ext. intros i Hi. rewrite rsum_scal, (proj2 (Ex_prob n T (T_prob n A HN) t Ht) i Hi). ring. }
  rewrite <- E1. unfold changed, stability_of.
  rewrite <- !rsum_sub. apply rsum_ext. intros i Hi. rewrite <- !rsum_sub. apply rsum_ext. intros j Hj.
  rewrite (real_matrix n eig A HN t M HM i j Hi Hj). destruct (Nat.eqb (lab i) (lab j)); ring.
Qed.
Lemma changed_term lab F i j : prob_matrix n F -> (i < n)%nat -> (j < n)%nat -> lab i <> lab j -> share n A i * F i j <= changed n A F lab.
Proof using HN.
  intros [F0 _] Hi Hj Hne. unfold changed.
  assert (N : forall a b, (a < n)%nat -> (b < n)%nat -> 0 <= (if Nat.eqb (lab a) (lab b) then 0 else share n A a * F a b)).
  { intros a b Ha Hb. destruct (Nat.eqb (lab a) (lab b)); [lra|]. apply Rmult_le_pos; [now apply (p_nonneg n A HN)|now apply F0]. }
  apply Rle_trans with (rsum n (fun b => if Nat.eqb (lab i) (lab b) then 0 else share n A i * F i b)).
  - pose proof (rsum_ge_term n (fun b => if Nat.eqb (lab i) (lab b) then 0 else share n A i * F i b) j Hj (fun b Hb => N i b Hi Hb)) as H. cbn beta in H.
    destruct (Nat.eqb_spec (lab i) (lab j)) as [|_]; [contradiction|exact H].
  - apply (rsum_ge_term n (fun a => rsum n (fun b => if Nat.eqb (lab a) (lab b) then 0 else share n A a * F a b)) i Hi). intros a Ha.
    apply Rle_trans with (rsum n (fun _ => 0)); [right; rewrite rsum_const; ring|]. apply rsum_le. intros b Hb. now apply N.
Qed.
End Network.

(** * C209: the stability lost since time 0 is the probability that a walker has changed its cluster *)
Theorem C209_lost : forall n m lab eig A t F M, network n A -> labelled n m lab -> 0 <= t ->
  expm n (scaled t (mminus ident (Tstat n A))) F -> static_real n eig A t M ->
  stability_of n M lab = apart n m A lab - changed n A F lab.
Proof.
  intros n m lab eig A t F M HN Hl Ht HF HM. rewrite (real_changed n A HN eig m lab t M Hl Ht HM). f_equal. unfold changed.
  apply rsum_ext. intros i Hi. apply rsum_ext. intros j Hj. now rewrite (expm_E n A HN t F HF i j Hi Hj).
Qed.
Print Assumptions C209_lost.
(** Clusters without edges between them keep all of it, at all times; *)
Theorem C209_kept : forall n m lab eig A t M, network n A -> labelled n m lab -> 0 <= t -> static_real n eig A t M ->
  (forall i j, (i < n)%nat -> (j < n)%nat -> edge A i j -> lab i = lab j) -> stability_of n M lab = apart n m A lab.
Proof.
  intros n m lab eig A t M HN Hl Ht HM HE. rewrite (real_changed n A HN eig m lab t M Hl Ht HM).
  set (T := step_of (mminus ident (Tstat n A))). assert (Z : changed n A (Ex n T t) lab = 0); [|rewrite Z; ring].
  unfold changed. rewrite (rsum_ext n _ (fun _ => 0)); [rewrite rsum_const; ring|]. intros i Hi. rewrite (rsum_ext n _ (fun _ => 0)); [rewrite rsum_const; ring|]. intros j Hj.
  destruct (Nat.eqb_spec (lab i) (lab j)) as [|Hne]; [reflexivity|]. assert (E : Ex n T t i j = 0); [|rewrite E; ring].
  assert (HT := T_prob n A HN). fold T in HT. destruct (Rle_lt_or_eq_dec 0 t Ht) as [Hp|<-].
  - destruct (Rle_lt_or_eq_dec _ _ (proj1 (Ex_prob n T HT t Ht) i j Hi Hj)) as [H|H]; [|now symmetry]. exfalso. apply Hne.
    apply (Ex_reaches n T HT t i j Hp Hi Hj) in H. clear Hne Hj Hi. induction H as [a Ha|a b c Ha Hb Hab Hbc IH]; [reflexivity|]. rewrite <- IH.
    destruct (Nat.eq_dec a b) as [->|Hn]; [reflexivity|]. apply (HE a b Ha Hb). now apply (edge_T n A HN a b Ha Hb Hn).
  - unfold Ex. rewrite (P_0 n T HT i j Hi Hj). unfold reye. destruct (Nat.eqb_spec i j) as [->|_]; [contradiction|]. ring.
Qed.
Print Assumptions C209_kept.
(** clusters with an edge between them lose some of it at once; *)
Theorem C209_leaky : forall n m lab eig A t M i j, network n A -> labelled n m lab -> 0 < t -> static_real n eig A t M ->
  (i < n)%nat -> (j < n)%nat -> edge A i j -> lab i <> lab j -> stability_of n M lab < apart n m A lab.
Proof.
  intros n m lab eig A t M i j HN Hl Ht HM Hi Hj HE Hne. rewrite (real_changed n A HN eig m lab t M Hl ltac:(lra) HM).
  set (T := step_of (mminus ident (Tstat n A))). assert (HT := T_prob n A HN). fold T in HT.
  assert (H := changed_term n A HN lab (Ex n T t) i j (Ex_prob n T HT t ltac:(lra)) Hi Hj Hne).
  assert (HP : 0 < share n A i * Ex n T t i j).
  { apply Rmult_lt_0_compat; [now apply (edge_strength n A HN i j)|]. apply (Ex_reaches n T HT t i j Ht Hi Hj).
    eapply reaches_step; [exact Hi|exact Hj|exact (T_edge n A HN i j Hi Hj HE)|now constructor]. }
  lra.
Qed.
Print Assumptions C209_leaky.
(** and in a connected network nothing is left in the long run, whatever the partition. *)
Theorem C209_long_run : forall n eig A eps, network n A -> undirected n A -> connected n A -> 0 < eps ->
  exists X, forall t M, X <= t -> static_real n eig A t M -> forall m lab, labelled n m lab -> 0 <= stability_of n M lab < eps.
Proof.
  intros n eig A eps HN HU HC Heps. set (T := step_of (mminus ident (Tstat n A))). assert (HT := T_prob n A HN). fold T in HT.
  assert (Hp : forall i, (i < n)%nat -> 0 < share n A i).
  { intros i Hi. destruct (proj2 HN) as (a & b & Ha & Hb & Hab). assert (H := HC i a Hi Ha). inversion H as [k Hk|k j l Hk Hj Hkj Hjl]; subst.
    - now apply (edge_strength n A HN a b).
    - now apply (edge_strength n A HN i j). }
  assert (HR : forall i j, (i < n)%nat -> (j < n)%nat -> (0%nat = 0%nat <-> reaches n (fun a b => 0 < T a b) i j)).
  { intros i j Hi Hj. split; [intros _|reflexivity]. assert (H := HC i j Hi Hj). clear Hj. induction H as [a Ha|a b c Ha Hb Hab Hbc IH]; [now constructor|].
    eapply reaches_step; [exact Ha|exact Hb|exact (T_edge n A HN a b Ha Hb Hab)|now apply IH]. }
  assert (Hn : 0 <= INR n) by apply pos_INR. assert (He : 0 < eps / (INR n + 1)) by (apply Rdiv_lt_0_compat; lra).
  destruct (Ex_limit n T HT (share n A) Hp (T_reversible n A HN HU) (fun _ => 0%nat) HR (eps / (INR n + 1)) He) as (X & HX & HE).
  exists X. intros t M Ht HM m lab Hl. split; [apply (C208_bounds n m lab eig A t M HN HU Hl ltac:(lra) HM)|].
  apply Rle_lt_trans with (rsum n (fun i => rsum n (fun j => share n A i * (eps / (INR n + 1))))).
  - unfold stability_of. apply rsum_le. intros i Hi. apply rsum_le. intros j Hj. assert (H0 := Hp i Hi).
    assert (HB : 0 <= share n A i * (eps / (INR n + 1))) by (apply Rmult_le_pos; lra).
    destruct (Nat.eqb (lab i) (lab j)); [|exact HB]. rewrite (real_matrix n eig A HN t M HM i j Hi Hj). fold T. change (let p := fun i0 => share n A i0 in p i) with (share n A i).
    specialize (HE t Ht i j Hi Hj). unfold limit, mass in HE. cbn [Nat.eqb] in HE. assert (S1 := p_sum n A HN). cbv zeta in S1.
    replace (rsum n (fun k => share n A k)) with 1 in HE by (first [exact S1|exact (eq_sym S1)]). unfold Rdiv in HE at 1. rewrite Rinv_1, Rmult_1_r in HE.
    assert (H1 := Rle_abs (Ex n T t i j - share n A j)).
    replace (share n A i * Ex n T t i j - share n A i * share n A j) with (share n A i * (Ex n T t i j - share n A j)) by ring. apply Rmult_le_compat_l; lra.
  - rewrite (rsum_ext n _ (fun i => INR n * (eps / (INR n + 1)) * share n A i)) by (intros i _; rewrite rsum_const; ring). rewrite rsum_scal.
    assert (S1 : rsum n (share n A) = 1) by exact (p_sum n A HN). rewrite S1. apply Rlt_le_trans with ((INR n + 1) * (eps / (INR n + 1)) * 1); [|right; field; lra].
    apply Rmult_lt_compat_r; [lra|]. apply Rmult_lt_compat_r; lra.
Qed.
Print Assumptions C209_long_run.
(** Two linked nodes are a connected network, each in its own cluster: 1/2 at time 0, less at once, and
    nothing in the long run.  Two pairs of linked nodes keep the stability 1/2 of the pairs. *)
Definition two_pairs : mat := of_rows [[0;1;0;0];[1;0;0;0];[0;0;0;1];[0;0;1;0]]%num.
Example C209_applies : network 2 pair /\ undirected 2 pair /\ connected 2 pair /\ labelled 2 2 (fun i => i) /\ edge pair 0 1 /\
  network 4 two_pairs /\ undirected 4 two_pairs /\ labelled 4 2 (fun i => Nat.div i 2) /\
  (forall i j, (i < 4)%nat -> (j < 4)%nat -> edge two_pairs i j -> Nat.div i 2 = Nat.div j 2) /\ apart 4 2 two_pairs (fun i => Nat.div i 2) = 1 / 2.
Proof.
  destruct pair_ok as (HN & HU & _). split; [exact HN|]. split; [exact HU|].
  assert (E01 : edge pair 0 1) by (vm_compute; discriminate). assert (E10 : edge pair 1 0) by (vm_compute; discriminate).
  split.
  { intros i j Hi Hj. destruct i as [|[|i]], j as [|[|j]]; try lia.
    - now constructor.
    - eapply reaches_step; [repeat constructor|repeat constructor|exact E01|repeat constructor].
    - eapply reaches_step; [repeat constructor|repeat constructor|exact E10|repeat constructor].
    - constructor; lia. }
  split; [intros i Hi; exact Hi|]. split; [exact E01|].
  split. { split; [|exists 0%nat, 1%nat; repeat split; [lia|lia|vm_compute; discriminate]]. intros i j Hi Hj. destruct i as [|[|[|[|i]]]], j as [|[|[|[|j]]]]; try lia; vm_compute; discriminate. }
  split. { intros i j Hi Hj. destruct i as [|[|[|[|i]]]], j as [|[|[|[|j]]]]; try lia; reflexivity. }
  split. { intros i Hi. destruct i as [|[|[|[|i]]]]; try lia; cbn; lia. }
  split. { intros i j Hi Hj H. destruct i as [|[|[|[|i]]]], j as [|[|[|[|j]]]]; try lia; try reflexivity; exfalso; apply H; reflexivity. }
  assert (S4 : forall i, (i < 4)%nat -> share 4 two_pairs i = 1 / 4).
  { intros i Hi. unfold share. assert (E : total_strength 4 two_pairs = qn 4) by (vm_compute; now apply Qc_is_canon). rewrite E, q2r_qn.
    assert (E1 : strength 4 two_pairs i = 1%num) by (destruct i as [|[|[|[|i]]]]; [vm_compute; now apply Qc_is_canon..|lia]). rewrite E1, q2r_1. cbn [INR]. lra. }
  unfold apart, cluster_share, rsum. cbn [seq map fold_right Nat.div Nat.divmod fst Nat.eqb]. rewrite !S4 by lia. lra.
Qed.
