(** Saved integrals can be loaded. *)
From Verif Require Import Base LouvainModel LouvainSpec SparseModel SparseSpec AutocovModel AutocovSpec AutocovProofs SparseLouvainSpec MatProofs EventsModel EventsSpec TransModel TransSpec TransProps
  FlowModel FlowSpec FlowProofs CovModel CovSpec CovProofs CovTaskProofs CovProps MultiModel MultiSpec ClustModel ClustSpec ClustProofs.

Lemma cov_above n p T i j : stochastic n T -> (forall k, k < n -> (0 <= p k)%num) -> i < n -> j < n -> (0 <= flow_cov n p T i j + p i * p j)%num.
Proof.
  intros [H0 _] Hp Hi Hj. unfold flow_cov.
  assert (G : (0 <= sumN n (fun k => if qeqb (at_end n p T k) 0 then 0 else p i * T i k * (p j * T j k) / at_end n p T k))%num).
  { apply sumN_nonneg. intros k Hk. destruct (qeqb_spec (at_end n p T k) 0%num) as [|N]; [apply Qcle_refl|].
    assert (Ha : (0 <= at_end n p T k)%num) by (apply sumN_nonneg; intros x Hx; apply qmult_nonneg; auto).
    apply qmult_nonneg.
    - apply qmult_nonneg; apply qmult_nonneg; auto.
    - apply Qclt_le_weak, inv_pos. destruct (qle_lt_or_eq _ _ Ha) as [L|L]; [exact L|congruence]. }
  revert G. generalize (sumN n (fun k => if qeqb (at_end n p T k) 0 then 0 else p i * T i k * (p j * T j k) / at_end n p T k))%num (p i * p j)%num. intros a b G.
  replace (a - b + b)%num with a by ring. exact G.
Qed.
Lemma average_above n Ts w i j : 0 < n -> length Ts = length w -> (forall T, In T Ts -> stochastic n T) -> (forall x, In x w -> (0 <= snd x)%num) -> (0 < duration w)%num ->
  i < n -> j < n -> (0 <= average n Ts w i j + 1 / qn n * (1 / qn n))%num.
Proof.
  intros Hn HL HS HW HD Hi Hj. unfold average. set (c := (1 / qn n)%num).
  assert (Ed : duration w = sumN (length w) (fun k => snd (nth k w (ident, 0%num)))).
  { unfold duration. rewrite <- (map_nth_seq w (ident, 0%num)) at 1. rewrite sumL_map. reflexivity. }
  assert (G : (0 <= sumN (length w) (fun k => snd (nth k w (ident, 0)) * (flow_cov n (fun _ => c) (nth k Ts ident) i j + c * c)))%num).
  { apply sumN_nonneg. intros k Hk. apply qmult_nonneg; [apply HW, nth_In; lia|]. apply (cov_above n (fun _ => c) (nth k Ts ident) i j); auto.
    - apply HS, nth_In. lia.
    - intros x _. apply Qclt_le_weak. now apply qn_inv_pos. }
  rewrite (sumN_ext (length w) _ (fun k => snd (nth k w (ident, 0)) * flow_cov n (fun _ => c) (nth k Ts ident) i j + c * c * snd (nth k w (ident, 0)))%num) in G by (intros; ring).
  rewrite sumN_add, sumN_scal_l in G. change (sumN (length w) (fun k => snd (nth k w (ident, 0%num)))) with (sumN (length w) (fun k => snd (nth k w (ident, 0%num)))) in G.
  rewrite <- Ed in G. set (X := sumN (length w) (fun k => (snd (nth k w (ident, 0)) * flow_cov n (fun _ => c) (nth k Ts ident) i j)%num)) in *.
  replace (X / duration w + c * c)%num with ((X + c * c * duration w) * / duration w)%num by (field; now apply nonzero_of_pos).
  apply qmult_nonneg; [exact G|]. apply Qclt_le_weak. now apply inv_pos.
Qed.
(** what is needed of the matrix of a file *)
Lemma saved_full n M t R : 0 < n -> (0 < t)%num -> (forall i j, j < i -> M i j = 0%num) -> eqm n (integral_of n M t) R ->
  (forall i j, i < n -> j < n -> (0 <= R i j + 1 / qn n * (1 / qn n))%num) -> zero_rows n R ->
  integral_ok n M t /\ forall i, i < n -> sumN n (full_integral n M t i) = (1 / qn n)%num.
Proof.
  intros Hn Ht HU HE H0 HR. set (c := (1 / qn n)%num) in *.
  assert (Hc : (0 < c)%num) by now apply qn_inv_pos. assert (Hq : qn n <> 0%num) by (apply nonzero_of_pos; rewrite <- qn_0; now apply qn_lt).
  assert (HF : forall i j, i < n -> j < n -> full_integral n M t i j = (R i j + c * c)%num).
  { intros i j Hi Hj. rewrite full_symmetrised by exact HU. rewrite <- (HE i j Hi Hj). unfold integral_of. fold c. generalize (c * symmetrised M i j * c / t)%num (c * c)%num. intros; ring. }
  assert (HS : forall i j, i < n -> j < n -> symmetrised M i j = ((R i j + c * c) * (qn n * qn n * t))%num).
  { intros i j Hi Hj. rewrite <- HF by assumption. rewrite full_symmetrised by exact HU. field. split; first [exact Hq | now apply nonzero_of_pos]. }
  assert (HP : (0 < qn n * qn n * t)%num) by (apply qmult_pos; [apply qmult_pos; rewrite <- qn_0; now apply qn_lt|exact Ht]).
  assert (Hrow : forall i, i < n -> sumN n (fun j => R i j + c * c)%num = c).
  { intros i Hi. rewrite sumN_add. change (sumN n (fun j => R i j)) with (sumN n (R i)). rewrite (HR i Hi). unfold sumN. rewrite sumL_const, seq_length. unfold c. field. exact Hq. }
  split.
  - split; [exact Hn|]. split; [exact Ht|]. split; [exact HU|]. split.
    + intros i j Hi Hj. destruct (Nat.le_gt_cases i j) as [L|L]; [|rewrite HU by exact L; apply Qcle_refl].
      assert (E := HS i j Hi Hj). unfold symmetrised in E. apply Nat.leb_le in L. rewrite L in E. rewrite E. apply qmult_nonneg; [now apply H0|now apply Qclt_le_weak].
    + intros i Hi. assert (Hp : (0 < sumN n (fun j => R i j + c * c))%num) by (rewrite Hrow by exact Hi; exact Hc).
      destruct (existsb (fun j => qltb 0%num (R i j + c * c)%num) (seq 0 n)) eqn:E.
      * apply existsb_exists in E. destruct E as (j & Hj & E). apply seq_In_iff in Hj. exists j. split; [exact Hj|]. rewrite HS by assumption.
        apply qmult_pos; [|exact HP]. destruct (qltb_spec 0%num (R i j + c * c)%num); [assumption|discriminate].
      * exfalso. rewrite sumN_zero in Hp; [revert Hp; apply Qcle_not_lt, Qcle_refl|]. intros j Hj. destruct (qle_lt_or_eq _ _ (H0 i j Hi Hj)) as [L|L]; [|now symmetry].
        exfalso. assert (X : existsb (fun j => qltb 0%num (R i j + c * c)%num) (seq 0 n) = true); [|congruence].
        apply existsb_exists. exists j. split; [now apply seq_In_iff|]. destruct (qltb_spec 0%num (R i j + c * c)%num); [reflexivity|contradiction].
  - intros i Hi. rewrite (sumN_ext n _ (fun j => R i j + c * c)%num) by (intros j Hj; now apply HF). now apply Hrow.
Qed.
Lemma saved_ok n data a b M t : 0 < n -> (forall k s, data k = Some s -> slice_ok n s) -> holds_rounded n data a b M t ->
  integral_ok n M t /\ forall i, i < n -> sumN n (full_integral n M t i) = (1 / qn n)%num.
Proof.
  intros Hn HS (Et & Ht & HU & Ts & HL & HTs & HE).
  assert (HW : forall x, In x (walk data a b) -> (0 <= snd x)%num) by (intros x; now apply (walk_nonneg n data a b x)).
  apply (saved_full n M t (average n Ts (walk data a b))); try assumption.
  - intros i j Hi Hj. apply average_above; try assumption. now rewrite <- Et.
  - apply average_cov; try assumption. now rewrite <- Et.
Qed.
