(** The exponential of -x (I - T) for large x, and for matrices with components. *)
From Coq Require Import Reals Lra Lia.
From Coquelicot Require Import Series.
From Verif Require Import Base GapModel GapSpec GapProofs ExpModel ExpSpec ExpSeries.
Local Open Scope R_scope.

Lemma min_pos m (f : nat -> R) : exists e, 0 < e /\ forall i, (i < m)%nat -> 0 < f i -> e <= f i.
Proof.
  induction m as [|m (e & He & IH)]; [exists 1; split; [lra|intros; lia]|]. destruct (Rlt_le_dec 0 (f m)) as [H|H].
  - exists (Rmin e (f m)). split; [now apply Rmin_glb_lt|]. intros i Hi Hf. destruct (Nat.eq_dec i m) as [->|Hne]; [apply Rmin_r|].
    apply Rle_trans with e; [apply Rmin_l|apply IH; [lia|exact Hf]].
  - exists e. split; [exact He|]. intros i Hi Hf. destruct (Nat.eq_dec i m) as [->|Hne]; [lra|apply IH; [lia|exact Hf]].
Qed.
Lemma min_pos2 m p (F : nat -> nat -> R) : exists e, 0 < e /\ forall i j, (i < m)%nat -> (j < p)%nat -> 0 < F i j -> e <= F i j.
Proof.
  induction m as [|m (e & He & IH)]; [exists 1; split; [lra|intros; lia]|]. destruct (min_pos p (F m)) as (e' & He' & H').
  exists (Rmin e e'). split; [now apply Rmin_glb_lt|]. intros i j Hi Hj Hf. destruct (Nat.eq_dec i m) as [->|Hne].
  - apply Rle_trans with e'; [apply Rmin_r|now apply H'].
  - apply Rle_trans with e; [apply Rmin_l|apply IH; [lia|exact Hj|exact Hf]].
Qed.

Section Limit.
Context (n : nat) (T : rmat) (HT : prob_matrix n T) (d : nat -> R) (Hd : forall i, (i < n)%nat -> 0 < d i)
  (Hrev : forall i j, (i < n)%nat -> (j < n)%nat -> d i * T i j = d j * T j i)
  (lab : nat -> nat) (Hlab : forall i j, (i < n)%nat -> (j < n)%nat -> (lab i = lab j <-> reaches n (fun a b => 0 < T a b) i j)).

Definition mass (i : nat) : R := rsum n (fun k => if Nat.eqb (lab k) (lab i) then d k else 0).
Definition limit : rmat := fun i j => if Nat.eqb (lab i) (lab j) then d j / mass i else 0.
Lemma mass_pos i : (i < n)%nat -> 0 < mass i.
Proof.
  intros Hi. apply Rlt_le_trans with (d i); [auto|]. unfold mass.
  pose proof (rsum_ge_term n (fun k => if Nat.eqb (lab k) (lab i) then d k else 0) i Hi) as H. cbn beta in H. rewrite Nat.eqb_refl in H. apply H.
  intros k Hk. destruct (Nat.eqb (lab k) (lab i)); [left; auto|lra].
Qed.
Lemma Ex_outside x i j : 0 < x -> (i < n)%nat -> (j < n)%nat -> lab i <> lab j -> Ex n T x i j = 0.
Proof.
  intros Hx Hi Hj Hne. destruct (Ex_prob n T HT x ltac:(lra)) as [H0 _]. specialize (H0 i j Hi Hj).
  destruct (Rle_lt_or_eq_dec _ _ H0) as [H|H]; [|now symmetry]. exfalso. apply Hne. apply Hlab; [assumption|assumption|]. now apply (Ex_reaches n T HT x).
Qed.
(** differences inside a component shrink *)
Lemma contraction : exists r, 0 <= r < 1 /\ forall k x i i' j, (i < n)%nat -> (i' < n)%nat -> (j < n)%nat -> lab i = lab i' ->
  INR k < x -> Ex n T x i j - Ex n T x i' j <= r ^ k.
Proof.
  destruct (min_pos2 n n (Ex n T 1)) as (e & He & Hmin). exists (1 - Rmin e 1).
  assert (Hm : 0 < Rmin e 1 <= 1) by (split; [apply Rmin_glb_lt; lra|apply Rmin_r]). split; [lra|].
  set (r := 1 - Rmin e 1) in *. induction k as [|k IH]; intros x i i' j Hi Hi' Hj Hl Hx.
  - cbn [pow]. assert (H0x : 0 <= x) by (cbn in Hx; lra). destruct (Ex_prob n T HT x H0x) as [H0 H1].
    assert (Ex n T x i j <= 1) by (rewrite <- (H1 i Hi); apply (rsum_ge_term n (Ex n T x i) j Hj); auto).
    specialize (H0 i' j Hi' Hj). lra.
  - rewrite S_INR in Hx. pose proof (pos_INR k) as Hk0. set (y := x - 1). assert (Hy : INR k < y) by (unfold y; lra).
    replace x with (1 + y) by (unfold y; ring). rewrite !(Ex_plus n T HT 1 y) by (assumption || lra). unfold times_matrix.
    destruct (Ex_prob n T HT 1 ltac:(lra)) as [A0 A1]. destruct (Ex_prob n T HT y ltac:(lra)) as [B0 _].
    set (a := Ex n T 1 i) in *. set (b := Ex n T 1 i') in *. set (h := fun c => Ex n T y c j) in *.
    change (rsum n (fun c => a c * h c) - rsum n (fun c => b c * h c) <= r ^ S k).
    set (w := fun c => Rmin (a c) (b c)).
    (* h is constant outside of the component, where a and b vanish *)
    set (h' := fun c => if Nat.eqb (lab c) (lab i) then h c else h i).
    assert (Ha : forall c, (c < n)%nat -> lab c <> lab i -> a c = 0) by (intros c Hc Hn; unfold a; apply Ex_outside; [lra|assumption|assumption|congruence]).
    assert (Hb : forall c, (c < n)%nat -> lab c <> lab i -> b c = 0) by (intros c Hc Hn; unfold b; apply Ex_outside; [lra|assumption|assumption|congruence]).
    assert (E1 : forall f, (forall c, (c < n)%nat -> lab c <> lab i -> f c = 0) -> rsum n (fun c => f c * h c) = rsum n (fun c => f c * h' c)).
    { intros f Hf. apply rsum_ext. intros c Hc. unfold h'. destruct (Nat.eqb_spec (lab c) (lab i)) as [|Hn]; [reflexivity|]. rewrite (Hf c Hc Hn). ring. }
    rewrite (E1 a Ha), (E1 b Hb).
    destruct (argmax n h' ltac:(lia)) as (c1 & Hc1 & M1). destruct (argmax n (fun c => - h' c) ltac:(lia)) as (c0 & Hc0 & M0).
    assert (Hosc : h' c1 - h' c0 <= r ^ k).
    { assert (G : forall c, (c < n)%nat -> exists c', (c' < n)%nat /\ lab c' = lab i /\ h' c = h c').
      { intros c Hc. unfold h'. destruct (Nat.eqb_spec (lab c) (lab i)) as [E|E]; [exists c; auto|exists i; auto]. }
      destruct (G c1 Hc1) as (x1 & X1 & L1 & ->). destruct (G c0 Hc0) as (x0 & X0 & L0 & ->). unfold h. apply IH; auto. congruence. }
    assert (Hw : forall c, (c < n)%nat -> 0 <= a c - w c /\ 0 <= b c - w c /\ 0 <= w c).
    { intros c Hc. unfold w. pose proof (Rmin_l (a c) (b c)). pose proof (Rmin_r (a c) (b c)). split; [lra|]. split; [lra|]. apply Rmin_glb; [apply (A0 i c Hi Hc)|apply (A0 i' c Hi' Hc)]. }
    set (s := 1 - rsum n w).
    assert (Sa : rsum n (fun c => a c - w c) = s) by (rewrite rsum_sub; unfold s; f_equal; apply (A1 i Hi)).
    assert (Sb : rsum n (fun c => b c - w c) = s) by (rewrite rsum_sub; unfold s; f_equal; apply (A1 i' Hi')).
    assert (Hs0 : 0 <= s) by (rewrite <- Sa, <- (Rmult_0_r (INR n)), <- rsum_const; apply rsum_le; intros c Hc; apply Hw; exact Hc).
    assert (Hs1 : s <= r).
    { unfold s, r. assert (Rmin e 1 <= rsum n w); [|lra]. apply Rle_trans with (w i).
      - unfold w. apply Rle_trans with e; [apply Rmin_l|]. assert (P1 : forall p, (p < n)%nat -> lab p = lab i -> e <= Ex n T 1 p i).
        { intros p Hp Lp. apply Hmin; [assumption|assumption|]. apply (Ex_reaches n T HT 1); [lra|assumption|assumption|]. now apply Hlab. }
        apply Rmin_glb; [now apply P1|apply P1; auto].
      - apply (rsum_ge_term n w i Hi). intros c Hc. apply Hw. exact Hc. }
    assert (U : rsum n (fun c => a c * h' c) <= rsum n (fun c => w c * h' c) + s * h' c1).
    { rewrite <- Sa, <- rsum_scal_r, <- rsum_add. apply rsum_le. intros c Hc. destruct (Hw c Hc) as (Q & _ & _). specialize (M1 c Hc).
      assert ((a c - w c) * h' c <= (a c - w c) * h' c1) by (apply Rmult_le_compat_l; assumption). lra. }
    assert (V : rsum n (fun c => w c * h' c) + s * h' c0 <= rsum n (fun c => b c * h' c)).
    { rewrite <- Sb, <- rsum_scal_r, <- rsum_add. apply rsum_le. intros c Hc. destruct (Hw c Hc) as (_ & Q & _). specialize (M0 c Hc). cbn beta in M0.
      assert ((b c - w c) * h' c0 <= (b c - w c) * h' c) by (apply Rmult_le_compat_l; [assumption|lra]). lra. }
    assert (r0 : 0 <= r ^ k) by (apply pow_le; unfold r; lra).
    apply Rle_trans with (s * (h' c1 - h' c0)); [lra|]. cbn [pow]. apply Rmult_le_compat; [exact Hs0| |exact Hs1|exact Hosc].
    specialize (M1 c0 Hc0). lra.
Qed.
Lemma Ex_limit : forall eps, 0 < eps -> exists X, 0 < X /\ forall x, X <= x -> forall i j, (i < n)%nat -> (j < n)%nat -> Rabs (Ex n T x i j - limit i j) < eps.
Proof.
  intros eps Heps. destruct contraction as (r & Hr & HC).
  destruct (pow_lt_1_zero r) with (y := eps) as [N HN]; [rewrite Rabs_right; lra|exact Heps|]. specialize (HN N ltac:(lia)). rewrite Rabs_right in HN by (apply Rle_ge, pow_le; lra).
  exists (INR N + 1). pose proof (pos_INR N). split; [lra|]. intros x Hx i j Hi Hj. unfold limit. destruct (Nat.eqb_spec (lab i) (lab j)) as [E|E].
  - assert (Hx0 : 0 <= x) by lra. destruct (Ex_prob n T HT x Hx0) as [_ E1]. pose proof (mass_pos i Hi) as HM.
    (* the weights are stationary *)
    assert (St : rsum n (fun k => (if Nat.eqb (lab k) (lab i) then d k else 0) * Ex n T x k j) = d j).
    { rewrite (rsum_ext n _ (fun k => d j * Ex n T x j k)).
      - rewrite rsum_scal, (E1 j Hj). ring.
      - intros k Hk. destruct (Nat.eqb_spec (lab k) (lab i)) as [Ek|Ek]; [now apply Ex_rev|]. rewrite (Ex_outside x j k) by (lra || congruence). ring. }
    assert (Eq : mass i * (Ex n T x i j - d j / mass i) = rsum n (fun k => (if Nat.eqb (lab k) (lab i) then d k else 0) * (Ex n T x i j - Ex n T x k j))).
    { rewrite (rsum_ext n _ (fun k => (if Nat.eqb (lab k) (lab i) then d k else 0) * Ex n T x i j - (if Nat.eqb (lab k) (lab i) then d k else 0) * Ex n T x k j)) by (intros; ring).
      rewrite rsum_sub, rsum_scal_r, St. fold (mass i). field. lra. }
    assert (Ub : Rabs (mass i * (Ex n T x i j - d j / mass i)) <= mass i * r ^ N).
    { rewrite Eq. eapply Rle_trans; [apply rsum_abs|]. unfold mass. rewrite <- rsum_scal_r. apply rsum_le. intros k Hk. rewrite Rabs_mult.
      destruct (Nat.eqb_spec (lab k) (lab i)) as [Ek|Ek]; [|rewrite Rabs_R0; lra]. rewrite (Rabs_right (d k)) by (apply Rle_ge; left; auto). apply Rmult_le_compat_l; [left; auto|].
      apply Rabs_le. split.
      - assert (Ex n T x k j - Ex n T x i j <= r ^ N) by (apply HC; auto; lra). lra.
      - apply HC; auto. lra. }
    rewrite Rabs_mult, (Rabs_right (mass i)) in Ub by lra. apply Rmult_le_reg_l in Ub; [lra|exact HM].
  - rewrite Ex_outside by (lra || assumption). rewrite Rminus_0_r, Rabs_R0. exact Heps.
Qed.
End Limit.

(** * Components *)
Section Blocks.
Context (n : nat) (A : rmat) (lab : nat -> nat) (Hc : forall i j, (i < n)%nat -> (j < n)%nat -> A i j <> 0 -> lab i = lab j).
Let idx := cmp_indices n lab.
Lemma in_idx c j : In j (idx c) <-> (j < n)%nat /\ lab j = c.
Proof. unfold idx, cmp_indices. rewrite filter_In, in_seq, Nat.eqb_eq. intuition lia. Qed.
Lemma idx_NoDup c : NoDup (idx c).
Proof. apply NoDup_filter, seq_NoDup. Qed.
Lemma position_nth x l : In x l -> (position x l < length l)%nat /\ nth (position x l) l O = x.
Proof.
  induction l as [|y l IH]; [intros []|]. cbn [position]. destruct (Nat.eqb_spec y x) as [->|Hne]; [intros _; cbn; split; [lia|reflexivity]|].
  intros [->|H]; [contradiction|]. destruct (IH H). cbn [length nth]. split; [lia|assumption].
Qed.
Lemma rsum_list (f : nat -> R) l : rsum (length l) (fun a => f (nth a l O)) = fold_right Rplus 0 (map f l).
Proof.
  induction l as [|y l IH]; [reflexivity|]. cbn [map fold_right]. rewrite <- IH. unfold rsum. cbn [length seq map fold_right nth]. f_equal. f_equal.
  rewrite <- seq_shift, map_map. reflexivity.
Qed.
Lemma rsum_filter m (p : nat -> bool) f : fold_right Rplus 0 (map f (filter p (seq 0 m))) = rsum m (fun j => if p j then f j else 0).
Proof.
  unfold rsum. induction (seq 0 m) as [|y l IH]; [reflexivity|]. cbn [filter map fold_right]. rewrite <- IH. destruct (p y); cbn [map fold_right]; [reflexivity|ring].
Qed.
Lemma pow_outside k : forall i j, (i < n)%nat -> (j < n)%nat -> lab i <> lab j -> rpow n A k i j = 0.
Proof.
  induction k as [|k IH]; intros i j Hi Hj Hn.
  - cbn. unfold reye. destruct (Nat.eqb_spec i j) as [->|]; [contradiction|reflexivity].
  - rewrite rpow_S, (rsum_ext n _ (fun _ => 0)), rsum_const; [ring|]. intros c Hcn. destruct (Req_dec (A i c) 0) as [->|Hz]; [ring|].
    rewrite IH; [ring|assumption|assumption|]. now rewrite <- (Hc i c Hi Hcn Hz).
Qed.
Lemma pow_inside c k : forall a b, (a < length (idx c))%nat -> (b < length (idx c))%nat ->
  rpow (length (idx c)) (sub_matrix (idx c) A) k a b = rpow n A k (nth a (idx c) O) (nth b (idx c) O).
Proof.
  induction k as [|k IH]; intros a b Ha Hb.
  - cbn. unfold reye. destruct (Nat.eqb_spec a b) as [->|Hne]; [now rewrite Nat.eqb_refl|].
    destruct (Nat.eqb_spec (nth a (idx c) O) (nth b (idx c) O)) as [E|_]; [|reflexivity]. exfalso. apply Hne. exact (proj1 (NoDup_nth (idx c) O) (idx_NoDup c) a b Ha Hb E).
  - rewrite !rpow_S. set (i := nth a (idx c) O). set (j := nth b (idx c) O).
    assert (Hi : (i < n)%nat /\ lab i = c) by (apply in_idx, nth_In; exact Ha). assert (Hj : (j < n)%nat /\ lab j = c) by (apply in_idx, nth_In; exact Hb).
    rewrite (rsum_ext _ _ (fun e => (fun q => A i q * rpow n A k q j) (nth e (idx c) O))).
    + rewrite (rsum_list (fun q => A i q * rpow n A k q j)). unfold idx, cmp_indices. rewrite rsum_filter. apply rsum_ext. intros q Hq.
      destruct (Nat.eqb_spec (lab q) c) as [E|E]; [reflexivity|]. destruct (Req_dec (A i q) 0) as [->|Hz]; [ring|]. exfalso. apply E. rewrite <- (Hc i q); [apply Hi|apply Hi|exact Hq|exact Hz].
    + intros e He. cbn beta. rewrite IH by assumption. reflexivity.
Qed.
Lemma blocks n_comp subs : (forall i, (i < n)%nat -> (lab i < n_comp)%nat) ->
  (forall c, (c < n_comp)%nat -> expm (length (idx c)) (sub_matrix (idx c) A) (subs c)) -> expm n A (put_together n lab subs).
Proof.
  intros Hl Hs i j Hi Hj. unfold put_together. destruct (Nat.eqb_spec (lab j) (lab i)) as [E|E].
  - assert (Ii : In i (idx (lab i))) by (apply in_idx; auto). assert (Ij : In j (idx (lab i))) by (apply in_idx; auto).
    destruct (position_nth i _ Ii) as [P1 N1]. destruct (position_nth j _ Ij) as [P2 N2].
    pose proof (Hs (lab i) (Hl i Hi) _ _ P1 P2) as H. apply is_series_Reals in H. apply is_series_Reals. revert H. apply rser_ext. intros k.
    rewrite pow_inside by assumption. now rewrite N1, N2.
  - intros e He. exists O. intros m _. rewrite (sum_eq _ (fun _ => 0)).
    + rewrite sum_cte. unfold R_dist. rewrite Rmult_0_l, Rminus_0_r, Rabs_R0. exact He.
    + intros k _. rewrite pow_outside by (assumption || congruence). unfold Rdiv. ring.
Qed.
End Blocks.
