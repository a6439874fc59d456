(** Property C208: static stability and the Markov time. *)
From Coq Require Import Reals Lra Lia.
From Verif Require Import Base GapModel GapProofs LouvainModel EventsModel EventsSpec TransModel TransSpec MatProofs
  StaticModel StaticSpec StaticProofs StaticProps ExpModel ExpSpec ExpSeries ExpProps StaticTimeModel.
Local Open Scope R_scope.

(** ** Specification: a partition of the nodes into [m] clusters is given by labels *)
Definition labelled (n m : nat) (lab : nat -> nat) : Prop := forall i, (i < n)%nat -> (lab i < m)%nat.
(** sum of the entries between nodes of the same cluster *)
Definition stability_of (n : nat) (M : rmat) (lab : nat -> nat) : R :=
  rsum n (fun i => rsum n (fun j => if Nat.eqb (lab i) (lab j) then M i j else 0)).
(** share of the weights of a node, and of a cluster *)
Definition share (n : nat) (A : mat) (i : nat) : R := q2r (strength n A i) / q2r (total_strength n A).
Definition cluster_share (n : nat) (A : mat) (lab : nat -> nat) (k : nat) : R :=
  rsum n (fun i => if Nat.eqb (lab i) k then share n A i else 0).

(** ** Weighted squares *)
Lemma jensen n a y : (forall i, (i < n)%nat -> 0 <= a i) -> rsum n a = 1 ->
  rsum n (fun i => a i * y i) * rsum n (fun i => a i * y i) <= rsum n (fun i => a i * (y i * y i)).
Proof.
  intros Ha H1. set (mu := rsum n (fun i => a i * y i)).
  assert (H : 0 <= rsum n (fun i => a i * ((y i - mu) * (y i - mu)))).
  { replace 0 with (rsum n (fun _ => 0)) by (rewrite rsum_const; ring). apply rsum_le. intros i Hi. apply Rmult_le_pos; [now apply Ha|apply Rle_0_sqr]. }
  rewrite (rsum_ext n _ (fun i => (a i * (y i * y i) - 2 * mu * (a i * y i)) + mu * mu * a i)) in H by (intros; ring).
  rewrite rsum_add, rsum_sub, !rsum_scal, H1 in H. fold mu in H. lra.
Qed.

Section Clusters.
Context (n m : nat) (lab : nat -> nat) (Hlab : labelled n m lab).
(** what a vector gives a cluster *)
Definition part_of (x : nat -> R) (k : nat) : R := rsum n (fun i => if Nat.eqb (lab i) k then x i else 0).
Lemma rsum_pick x k : (k < m)%nat -> rsum m (fun l => if Nat.eqb k l then x l else 0) = x k.
Proof.
  intros Hk. rewrite (rsum_ext m _ (fun l => (if Nat.eqb k l then 1 else 0) * x l)) by (intros l _; destruct (Nat.eqb k l); ring). now apply rsum_delta.
Qed.
Lemma squares x y : rsum n (fun i => rsum n (fun j => if Nat.eqb (lab i) (lab j) then x i * y j else 0)) =
  rsum m (fun k => part_of x k * part_of y k).
Proof using Hlab.
  rewrite (rsum_ext m _ (fun k => rsum n (fun i => if Nat.eqb (lab i) k then x i * part_of y k else 0))).
  - rewrite (rsum_swap m n). apply rsum_ext. intros i Hi. rewrite (rsum_pick (fun k => x i * part_of y k)) by now apply Hlab.
    unfold part_of. rewrite <- rsum_scal. apply rsum_ext. intros j _. rewrite Nat.eqb_sym. destruct (Nat.eqb (lab j) (lab i)); ring.
  - intros k _. unfold part_of at 1. rewrite Rmult_comm, <- rsum_scal. apply rsum_ext. intros i _. destruct (Nat.eqb (lab i) k); ring.
Qed.
Lemma part_lin (a : nat -> R) (G : rmat) k : part_of (fun i => rsum n (fun c => a c * G c i)) k = rsum n (fun c => a c * part_of (G c) k).
Proof.
  unfold part_of. rewrite (rsum_ext n _ (fun i => rsum n (fun c => if Nat.eqb (lab i) k then a c * G c i else 0))).
  - rewrite rsum_swap. apply rsum_ext. intros c _. rewrite <- rsum_scal. apply rsum_ext. intros i _. destruct (Nat.eqb (lab i) k); ring.
  - intros i _. destruct (Nat.eqb (lab i) k); [reflexivity|]. rewrite rsum_const. ring.
Qed.
Lemma part_ext x y k : (forall i, (i < n)%nat -> x i = y i) -> part_of x k = part_of y k.
Proof. intros H. apply rsum_ext. intros i Hi. now rewrite H. Qed.

(** how concentrated the walkers are, on average over their starts *)
Definition concentration (p : nat -> R) (G : rmat) : R := rsum n (fun c => p c * rsum m (fun k => part_of (G c) k * part_of (G c) k)).
Definition reversible_for (p : nat -> R) (G : rmat) : Prop := forall i j, (i < n)%nat -> (j < n)%nat -> p i * G i j = p j * G j i.
Lemma stability_twice p G F : reversible_for p G -> same n F (times_matrix n G G) ->
  stability_of n (fun i j => p i * F i j - p i * p j) lab = concentration p G - rsum m (fun k => part_of p k * part_of p k).
Proof using Hlab.
  intros HR HF. unfold stability_of.
  rewrite (rsum_ext n _ (fun i => rsum n (fun j => if Nat.eqb (lab i) (lab j) then p i * F i j else 0) - rsum n (fun j => if Nat.eqb (lab i) (lab j) then p i * p j else 0))).
  2:{ intros i _. rewrite <- rsum_sub. apply rsum_ext. intros j _. destruct (Nat.eqb (lab i) (lab j)); ring. }
  rewrite rsum_sub. f_equal; [|apply squares]. unfold concentration.
  rewrite (rsum_ext n (fun c => p c * _) (fun c => rsum n (fun i => rsum n (fun j => if Nat.eqb (lab i) (lab j) then p c * G c i * G c j else 0)))).
  2:{ intros c _. rewrite <- (squares (G c) (G c)). rewrite <- rsum_scal. apply rsum_ext. intros i _. rewrite <- rsum_scal. apply rsum_ext. intros j _. destruct (Nat.eqb (lab i) (lab j)); ring. }
  symmetry. rewrite rsum_swap. apply rsum_ext. intros i Hi. rewrite rsum_swap. apply rsum_ext. intros j Hj. symmetry.
  destruct (Nat.eqb (lab i) (lab j)); [|rewrite rsum_const; ring]. rewrite HF by assumption. unfold times_matrix. rewrite <- rsum_scal. apply rsum_ext. intros c Hc.
  rewrite <- (HR i c Hi Hc). ring.
Qed.
Lemma concentration_falls p G G' H : prob_matrix n H -> (forall i, (i < n)%nat -> 0 <= p i) -> (forall j, (j < n)%nat -> rsum n (fun i => p i * H i j) = p j) ->
  same n G' (times_matrix n H G) -> concentration p G' <= concentration p G.
Proof.
  intros [H0 H1] Hp Hinv HG. unfold concentration.
  apply Rle_trans with (rsum n (fun c => p c * rsum n (fun d => H c d * rsum m (fun k => part_of (G d) k * part_of (G d) k)))).
  - apply rsum_le. intros c Hc. apply Rmult_le_compat_l; [now apply Hp|].
    rewrite (rsum_ext n _ (fun d => rsum m (fun k => H c d * (part_of (G d) k * part_of (G d) k)))) by (intros d _; now rewrite rsum_scal).
    rewrite (rsum_swap n m). apply rsum_le. intros k _.
    assert (E : part_of (G' c) k = rsum n (fun d => H c d * part_of (G d) k)).
    { rewrite (part_ext (G' c) (fun i => rsum n (fun d => H c d * G d i))) by (intros i Hi; now rewrite HG). apply part_lin. }
    rewrite E. apply (jensen n (H c) (fun d => part_of (G d) k)); [intros d Hd; now apply H0|now apply H1].
  - right. rewrite (rsum_ext n _ (fun c => rsum n (fun d => p c * H c d * rsum m (fun k => part_of (G d) k * part_of (G d) k)))).
    2:{ intros c _. rewrite <- rsum_scal. apply rsum_ext. intros; ring. }
    rewrite rsum_swap. apply rsum_ext. intros d Hd. rewrite <- (Hinv d Hd).
    rewrite (Rmult_comm (rsum n (fun i => p i * H i d))), <- rsum_scal. apply rsum_ext. intros; ring.
Qed.
Lemma concentration_least p G : (forall i, (i < n)%nat -> 0 <= p i) -> rsum n p = 1 -> (forall j, (j < n)%nat -> rsum n (fun i => p i * G i j) = p j) ->
  rsum m (fun k => part_of p k * part_of p k) <= concentration p G.
Proof.
  intros Hp H1 Hinv. unfold concentration.
  rewrite (rsum_ext n _ (fun c => rsum m (fun k => p c * (part_of (G c) k * part_of (G c) k)))) by (intros c _; now rewrite rsum_scal).
  rewrite rsum_swap. apply rsum_le. intros k _.
  assert (E : part_of p k = rsum n (fun c => p c * part_of (G c) k)).
  { rewrite (part_ext p (fun i => rsum n (fun c => p c * G c i))) by (intros i Hi; symmetry; now apply Hinv). apply part_lin. }
  rewrite E. now apply (jensen n p (fun c => part_of (G c) k)).
Qed.
Lemma stability_start p : rsum n p = 1 -> stability_of n (fun i j => p i * reye i j - p i * p j) lab = 1 - rsum m (fun k => part_of p k * part_of p k).
Proof using Hlab.
  intros H1. unfold stability_of.
  rewrite (rsum_ext n _ (fun i => rsum n (fun j => (if Nat.eqb i j then 1 else 0) * p i) - rsum n (fun j => if Nat.eqb (lab i) (lab j) then p i * p j else 0))).
  2:{ intros i _. rewrite <- rsum_sub. apply rsum_ext. intros j _. unfold reye. destruct (Nat.eqb_spec i j) as [<-|]; [rewrite Nat.eqb_refl; ring|destruct (Nat.eqb (lab i) (lab j)); ring]. }
  rewrite rsum_sub. f_equal; [|apply squares]. transitivity (rsum n p); [|exact H1]. apply rsum_ext. intros i Hi. now apply (rsum_delta n i (fun _ => p i)).
Qed.
End Clusters.

(** ** The walk of an undirected network *)
Section Network.
Context (n : nat) (eig : mat -> eigenpair) (A : mat) (HN : network n A) (HU : undirected n A).
Let W := Tstat n A.
Let T : rmat := step_of (mminus ident W).
Let p (i : nat) : R := share n A i.
Lemma T_entry i j : T i j = q2r (W i j).
Proof. unfold T, step_of, toR, mminus. rewrite q2r_sub. rewrite <- toR_ident. unfold toR. ring. Qed.
Lemma T_prob : prob_matrix n T.
Proof using HN.
  destruct HN as [A0 _]. assert (HW := Tstat_walks n A A0). destruct (walks_stochastic n A A0 _ HW) as [W0 W1]. fold W in W0, W1. split.
  - intros i j Hi Hj. rewrite T_entry, <- q2r_0. apply q2r_le. now apply W0.
  - intros i Hi. rewrite (rsum_ext n _ (fun j => q2r (W i j))) by (intros; apply T_entry). rewrite <- q2r_sumN, <- q2r_1. f_equal. now apply W1.
Qed.
Lemma total_positive : (0 < total_strength n A)%num.
Proof using HN. destruct HN as [A0 HA]. now apply total_pos. Qed.
Lemma share_q i : p i = q2r (strength n A i / total_strength n A)%num.
Proof using HN. unfold p, share. rewrite q2r_div; [reflexivity|]. apply qneq_pos, total_positive. Qed.
Lemma p_nonneg i : (i < n)%nat -> 0 <= p i.
Proof using HN. intros Hi. rewrite share_q, <- q2r_0. apply q2r_le. destruct HN as [A0 _]. now apply (density_strength n A A0 total_positive). Qed.
Lemma p_sum : rsum n p = 1.
Proof using HN.
  rewrite (rsum_ext n _ (fun i => q2r (strength n A i / total_strength n A)%num)) by (intros; apply share_q). rewrite <- q2r_sumN, <- q2r_1. f_equal.
  destruct HN as [A0 _]. apply (density_strength n A A0 total_positive).
Qed.
Lemma T_reversible i j : (i < n)%nat -> (j < n)%nat -> p i * T i j = p j * T j i.
Proof using HN HU.
  intros Hi Hj. rewrite !T_entry, !share_q, <- !q2r_mul. f_equal. destruct HN as [A0 _]. apply (balanced_walk n A A0 W (Tstat_walks n A A0) HU i j Hi Hj).
Qed.
Lemma stationary_p q : stationary n eig false A = Some q -> forall i, q2r (q i) = p i.
Proof using HN. rewrite (undirected_some n eig A total_positive). intros E i. injection E as <-. now rewrite share_q. Qed.
Lemma expm_E x F : expm n (scaled x (mminus ident W)) F -> same n F (Ex n T x).
Proof using HN.
  intros HF. apply (expm_unique n (scaled x (mminus ident W))); [exact HF|].
  apply (expm_ext n (gen T x) _ (Ex n T x)); [intros i j _ _; symmetry; apply scaled_gen|intros i j _ _; reflexivity|apply Ex_expm; exact T_prob].
Qed.
Lemma E_rev x : reversible_for n p (Ex n T x).
Proof using HN HU. intros i j Hi Hj. apply (Ex_rev n T T_prob); [exact T_reversible|exact Hi|exact Hj]. Qed.
Lemma E_inv x j : 0 <= x -> (j < n)%nat -> rsum n (fun i => p i * Ex n T x i j) = p j.
Proof using HN HU.
  intros Hx Hj. rewrite (rsum_ext n _ (fun i => p j * Ex n T x j i)) by (intros i Hi; now apply E_rev). rewrite rsum_scal.
  rewrite (proj2 (Ex_prob n T T_prob x Hx) j Hj). ring.
Qed.
Lemma real_matrix t M : static_real n eig A t M -> forall i j, (i < n)%nat -> (j < n)%nat -> M i j = p i * Ex n T t i j - p i * p j.
Proof using HN.
  intros (q & F & Eq & HF & ->) i j Hi Hj. rewrite !(stationary_p q Eq). now rewrite (expm_E t F HF i j Hi Hj).
Qed.
Lemma half t : 0 <= t -> same n (Ex n T t) (times_matrix n (Ex n T (t / 2)) (Ex n T (t / 2))).
Proof using HN. intros Ht. replace t with (t / 2 + t / 2) at 1 by field. apply (Ex_plus n T T_prob); lra. Qed.
Lemma real_stability m lab t M : labelled n m lab -> 0 <= t -> static_real n eig A t M ->
  stability_of n M lab = concentration n m lab p (Ex n T (t / 2)) - rsum m (fun k => part_of n lab p k * part_of n lab p k).
Proof using HN HU.
  intros Hl Ht HM. rewrite <- (stability_twice n m lab Hl p (Ex n T (t / 2)) (Ex n T t) (E_rev (t / 2)) (half t Ht)).
  unfold stability_of. apply rsum_ext. intros i Hi. apply rsum_ext. intros j Hj. now rewrite (real_matrix t M HM i j Hi Hj).
Qed.
End Network.

(** * C208: the stability of a partition does not grow with the Markov time *)
Theorem C208_falls : forall n m lab eig A s t Ms Mt, network n A -> undirected n A -> labelled n m lab -> 0 <= s -> s <= t ->
  static_real n eig A s Ms -> static_real n eig A t Mt -> stability_of n Mt lab <= stability_of n Ms lab.
Proof.
  intros n m lab eig A s t Ms Mt HN HU Hl Hs Hst HMs HMt.
  rewrite (real_stability n eig A HN HU m lab s Ms Hl Hs HMs), (real_stability n eig A HN HU m lab t Mt Hl ltac:(lra) HMt).
  apply Rplus_le_compat_r. set (T := step_of (mminus ident (Tstat n A))).
  apply (concentration_falls n m lab (share n A) (Ex n T (s / 2)) (Ex n T (t / 2)) (Ex n T ((t - s) / 2))).
  - apply (Ex_prob n T (T_prob n A HN)). lra.
  - apply (p_nonneg n A HN).
  - intros j Hj. apply (E_inv n A HN HU); [lra|exact Hj].
  - replace (t / 2) with ((t - s) / 2 + s / 2) by field. apply (Ex_plus n T (T_prob n A HN)); lra.
Qed.
Print Assumptions C208_falls.
(** It lies between 0 and the probability that two walkers at equilibrium are in different clusters,
    which it is at time 0. *)
Theorem C208_bounds : forall n m lab eig A t M, network n A -> undirected n A -> labelled n m lab -> 0 <= t -> static_real n eig A t M ->
  0 <= stability_of n M lab <= 1 - rsum m (fun k => cluster_share n A lab k * cluster_share n A lab k).
Proof.
  intros n m lab eig A t M HN HU Hl Ht HM. set (T := step_of (mminus ident (Tstat n A))). split.
  - rewrite (real_stability n eig A HN HU m lab t M Hl Ht HM). apply Rge_le, Rge_minus, Rle_ge.
    apply concentration_least; [apply (p_nonneg n A HN)|apply (p_sum n A HN)|]. intros j Hj. apply (E_inv n A HN HU); [lra|exact Hj].
  - rewrite (real_stability n eig A HN HU m lab t M Hl Ht HM). apply Rplus_le_compat_r.
    apply Rle_trans with (concentration n m lab (share n A) reye).
    + apply (concentration_falls n m lab (share n A) reye (Ex n T (t / 2)) (Ex n T (t / 2))).
      * apply (Ex_prob n T (T_prob n A HN)). lra.
      * apply (p_nonneg n A HN).
      * intros j Hj. apply (E_inv n A HN HU); [lra|exact Hj].
      * intros i j Hi Hj. unfold times_matrix. rewrite <- (rsum_delta n j (fun c => Ex n T (t / 2) i c) Hj). apply rsum_ext. intros c _. unfold reye. rewrite Nat.eqb_sym. ring.
    + right. unfold concentration. rewrite <- (p_sum n A HN). apply rsum_ext. intros c Hc.
      assert (E : rsum m (fun k => part_of n lab (reye c) k * part_of n lab (reye c) k) = 1).
      { rewrite (rsum_ext m _ (fun k => (if Nat.eqb (lab c) k then 1 else 0) * 1)).
        - now apply (rsum_delta m (lab c) (fun _ => 1)), Hl.
        - intros k _. unfold part_of. rewrite (rsum_ext n _ (fun i => (if Nat.eqb c i then 1 else 0) * (if Nat.eqb (lab i) k then 1 else 0))).
          + rewrite (rsum_delta n c (fun i => if Nat.eqb (lab i) k then 1 else 0) Hc). destruct (Nat.eqb (lab c) k); ring.
          + intros i _. unfold reye. destruct (Nat.eqb c i), (Nat.eqb (lab i) k); ring. }
      rewrite E. unfold share. ring.
Qed.
Print Assumptions C208_bounds.
Theorem C208_start : forall n m lab eig A M, network n A -> undirected n A -> labelled n m lab -> static_real n eig A 0 M ->
  stability_of n M lab = 1 - rsum m (fun k => cluster_share n A lab k * cluster_share n A lab k).
Proof.
  intros n m lab eig A M HN HU Hl HM. etransitivity; [|exact (stability_start n m lab Hl (share n A) (p_sum n A HN))].
  unfold stability_of. apply rsum_ext. intros i Hi. apply rsum_ext. intros j Hj. rewrite (real_matrix n eig A HN 0 M HM i j Hi Hj).
  set (T := step_of (mminus ident (Tstat n A))). assert (E : Ex n T 0 i j = reye i j).
  { unfold Ex. rewrite Ropp_0, exp_0, (P_0 n T (T_prob n A HN)) by assumption. ring. }
  rewrite E. reflexivity.
Qed.
Print Assumptions C208_start.
(** There is such a matrix for every time. *)
Theorem C208_exists : forall n eig A t, network n A -> exists M, static_real n eig A t M.
Proof.
  intros n eig A t HN. set (T := step_of (mminus ident (Tstat n A))).
  eexists. exists (fun i => (strength n A i / total_strength n A)%num), (Ex n T t). split; [apply (undirected_some n eig A (total_positive n A HN))|]. split; [|reflexivity].
  apply (expm_ext n (gen T t) _ (Ex n T t)); [intros i j _ _; symmetry; apply scaled_gen|intros i j _ _; reflexivity|apply Ex_expm; exact (T_prob n A HN)].
Qed.
(** Walking forth and back: the matrix for the time 2t is the covariance that flow stability uses, for
    a flow that lasts t on the network. *)
Theorem C208_forth_and_back : forall n eig A t F M, network n A -> undirected n A -> 0 <= t ->
  expm n (scaled t (mminus ident (Tstat n A))) F -> static_real n eig A (2 * t) M ->
  forall i j, (i < n)%nat -> (j < n)%nat ->
    M i j = rsum n (fun k => share n A i * F i k * / share n A k * (F j k * share n A j)) - share n A i * share n A j.
Proof.
  intros n eig A t F M HN HU Ht HF HM i j Hi Hj. rewrite (real_matrix n eig A HN (2 * t) M HM i j Hi Hj). f_equal.
  set (T := step_of (mminus ident (Tstat n A))). assert (EF := expm_E n A HN t F HF). fold T in EF.
  assert (E2 := half n A HN (2 * t) ltac:(lra) i j Hi Hj). fold T in E2. replace (2 * t / 2) with t in E2 by field. rewrite E2. unfold times_matrix.
  rewrite <- rsum_scal. apply rsum_ext. intros k Hk. rewrite !EF by assumption.
  assert (R1 : share n A j * Ex n T t j k = share n A k * Ex n T t k j) by exact (E_rev n A HN HU t j k Hj Hk).
  assert (R2 : share n A i * Ex n T t i k = share n A k * Ex n T t k i) by exact (E_rev n A HN HU t i k Hi Hk).
  destruct (Req_dec (share n A k) 0) as [Z|Z].
  - rewrite Z in R1, R2. rewrite Rmult_0_l in R2. transitivity (share n A i * Ex n T t i k * Ex n T t k j); [ring|]. rewrite R2. ring.
  - transitivity (share n A i * Ex n T t i k * / share n A k * (share n A j * Ex n T t j k)); [|ring]. rewrite R1. field. exact Z.
Qed.
Print Assumptions C208_forth_and_back.
(** Two linked nodes, each alone: at most 1/2, from 1/2 at time 0. *)
Lemma pair_share i : (i < 2)%nat -> share 2 pair i = 1 / 2.
Proof.
  intros Hi. unfold share. assert (E : total_strength 2 pair = (1 + 1)%num) by (vm_compute; now apply Qc_is_canon). rewrite E, q2r_add, q2r_1.
  assert (E1 : strength 2 pair i = 1%num) by (destruct i as [|[|i]]; [vm_compute; now apply Qc_is_canon..|lia]). rewrite E1, q2r_1. lra.
Qed.
Example C208_applies : network 2 pair /\ undirected 2 pair /\ labelled 2 2 (fun i => i) /\
  (forall M, static_real 2 no_eig pair 0 M -> stability_of 2 M (fun i => i) = 1 / 2) /\
  (forall t, 0 <= t -> exists M, static_real 2 no_eig pair t M /\ 0 <= stability_of 2 M (fun i => i) <= 1 / 2).
Proof.
  destruct pair_ok as (HN & HU & _). assert (HL : labelled 2 2 (fun i => i)) by (intros i Hi; exact Hi).
  assert (E : 1 - rsum 2 (fun k => cluster_share 2 pair (fun i => i) k * cluster_share 2 pair (fun i => i) k) = 1 / 2).
  { unfold cluster_share, rsum. cbn [seq map fold_right Nat.eqb]. rewrite !pair_share by lia. lra. }
  repeat (split; [assumption|]). split.
  - intros M HM. rewrite (C208_start 2 2 (fun i => i) no_eig pair M HN HU HL HM). exact E.
  - intros t Ht. destruct (C208_exists 2 no_eig pair t HN) as [M HM]. exists M. split; [exact HM|].
    rewrite <- E. exact (C208_bounds 2 2 (fun i => i) no_eig pair t M HN HU HL Ht HM).
Qed.
(** With [discrete_time_rw] the stability of a partition can rise, and be negative: the same nodes after
    one step and after two. *)
Example C208_discrete_rises :
  match static_clustering 2 no_eig resolvent false pair (PyInt 1) true false false, static_clustering 2 no_eig resolvent false pair (PyInt 2) true false false with
  | Some c1, Some c2 => qeqb (sumN 2 (fun i => st_S c1 i i)) (qf (-1) 2) && qeqb (sumN 2 (fun i => st_S c2 i i)) (qf 1 2) = true
  | _, _ => False
  end.
Proof. vm_compute. reflexivity. Qed.
