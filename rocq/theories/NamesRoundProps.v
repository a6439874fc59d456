(** Property C185: the waiting time that a name shows. *)
From Coq Require Import Ascii String Qround Qpower Lqa.
From Verif Require Import Base LouvainModel SparseModel EventsModel TransModel FileModel FileSpec FileProofs NamesModel NamesSpec NamesProofs.
Local Open Scope list_scope.

(** the distance of two numbers *)
Definition dist (x y : num) : num := qabs (x - y)%num.
Lemma dist_le x y z : (dist x y <= z)%num <-> (x - y <= z)%num /\ (y - x <= z)%num.
Proof. unfold dist, qabs. destruct (qltb_spec (x - y)%num 0%num) as [H|H]; (split; [intros K; split|intros [K1 K2]]); revert H; try revert K; try revert K1 K2; qlra. Qed.
Lemma dist_scale x y c : (0 < c)%num -> dist (x * c)%num (y * c)%num = (dist x y * c)%num.
Proof.
  intros Hc. unfold dist, qabs. replace (x * c - y * c)%num with ((x - y) * c)%num by ring.
  destruct (qltb_spec ((x - y) * c)%num 0%num) as [H|H], (qltb_spec (x - y)%num 0%num) as [K|K]; try ring; exfalso.
  - revert H. apply Qcle_not_lt. apply qmult_nonneg; [now apply Qcnot_lt_le|now apply Qclt_le_weak].
  - apply H. revert K Hc. generalize (x - y)%num. intros z. qnra.
Qed.

Lemma same_number (a b : num) : Some a = Some b -> a = b.
Proof. congruence. Qed.

(** ** Rounding to an integer *)
Lemma half_twice : ((1 / 2) + (1 / 2) = 1)%num. Proof. now apply Qc_is_canon. Qed.
Ltac qhalf := generalize half_twice; generalize (1 / 2)%num; qlra.
Lemma floor_parts y : (0 <= y)%num -> exists k, Qfloor (this y) = Z.of_nat k /\ qz (Z.of_nat k) = qn k /\ (qn k <= y)%num /\ (y < qn k + 1)%num.
Proof.
  intros Hy. set (f := Qfloor (this y)).
  assert (F1 : (inject_Z f <= this y)%Q) by apply Qfloor_le. assert (F2 : (this y < inject_Z (f + 1))%Q) by apply Qlt_floor.
  assert (F0 : (0 <= f)%Z). { assert (X : (inject_Z 0 < inject_Z (f + 1))%Q) by (eapply Qle_lt_trans; [|exact F2]; exact Hy). rewrite <- Zlt_Qlt in X. lia. }
  exists (Z.to_nat f). rewrite Z2Nat.id by exact F0. split; [reflexivity|].
  assert (Q1 : qz f = qn (Z.to_nat f)) by (unfold qn; rewrite Z2Nat.id by exact F0; reflexivity). split; [exact Q1|]. rewrite <- Q1. split.
  - unfold Qcle. now rewrite this_qz.
  - apply qc_lt_this. rewrite this_plus, this_qz, this_Q2Qc. rewrite inject_Z_plus in F2. exact F2.
Qed.
Lemma round_even_cases y : (0 <= y)%num -> exists k, (qn k <= y)%num /\ (y < qn k + 1)%num /\
  (((y - qn k < 1 / 2)%num /\ round_even y = k) \/ ((1 / 2 < y - qn k)%num /\ round_even y = S k) \/
   ((y - qn k = 1 / 2)%num /\ round_even y = if Nat.even k then k else S k)).
Proof.
  intros Hy. destruct (floor_parts y Hy) as (k & Ef & Eq & H1 & H2). exists k. split; [exact H1|]. split; [exact H2|].
  assert (ES : Z.to_nat (Z.of_nat k + 1) = S k) by lia.
  unfold round_even. rewrite Ef, Eq. destruct (qltb_spec (y - qn k)%num (1 / 2)%num) as [L|L]; [left; split; [exact L|apply Nat2Z.id]|right].
  destruct (qltb_spec (1 / 2)%num (y - qn k)%num) as [L'|L']; [left; split; [exact L'|exact ES]|right].
  split; [apply Qcle_antisym; now apply Qcnot_lt_le|].
  destruct (Nat.even k) eqn:E.
  - assert (Ez : Z.even (Z.of_nat k) = true) by (apply Nat.even_spec in E; destruct E as (a & ->); apply Z.even_spec; exists (Z.of_nat a); lia). rewrite Ez. apply Nat2Z.id.
  - assert (Ez : Z.even (Z.of_nat k) = false). { destruct (Z.even (Z.of_nat k)) eqn:Ez; [|reflexivity]. apply Z.even_spec in Ez. destruct Ez as (a & Ha). assert (Ex : Nat.even k = true) by (apply Nat.even_spec; exists (Z.to_nat a); lia). congruence. }
    rewrite Ez. exact ES.
Qed.
Lemma qn_S k : qn (S k) = (qn k + 1)%num.
Proof. rewrite <- Nat.add_1_r, qn_plus. reflexivity. Qed.
Lemma round_even_near y : (0 <= y)%num -> (dist (qn (round_even y)) y <= 1 / 2)%num.
Proof.
  intros Hy. destruct (round_even_cases y Hy) as (k & H1 & H2 & H). apply dist_le.
  destruct H as [[H ->]|[[H ->]|[H ->]]]; [| |destruct (Nat.even k)]; rewrite ?qn_S; (split; revert H1 H2 H; generalize (qn k); qhalf).
Qed.
Lemma round_even_nearest y k : (0 <= y)%num -> (dist (qn (round_even y)) y <= dist (qn k) y)%num.
Proof.
  intros Hy. assert (HN := round_even_near y Hy). destruct (Nat.eq_dec k (round_even y)) as [->|Hne]; [apply Qcle_refl|].
  apply dist_le in HN. set (r := round_even y) in *. clearbody r. destruct HN as [N1 N2].
  assert (HD : (dist (qn r) y <= 1 / 2)%num) by (apply dist_le; now split). eapply Qcle_trans; [exact HD|]. apply Qcnot_lt_le. intros HL.
  assert (HK : (dist (qn k) y <= dist (qn k) y)%num) by apply Qcle_refl. apply dist_le in HK. destruct HK as [K1 K2].
  assert (HC : (qn k + 1 <= qn r)%num \/ (qn r + 1 <= qn k)%num).
  { destruct (Nat.lt_gt_cases k r) as [HC _]. destruct (HC Hne) as [Hc|Hc]; [left|right]; rewrite <- qn_S; apply qn_le; lia. }
  revert HL K1 K2 N1 N2 HC. generalize (dist (qn k) y) (qn k) (qn r). intros d a b HL K1 K2 N1 N2 [HC|HC]; revert HL K1 K2 N1 N2 HC; qhalf.
Qed.

(** ** Four digits *)
Lemma value_of_scale r e : value_of r e = (qn r * p10 (e - 3))%num.
Proof. reflexivity. Qed.
Lemma value_of_10000 e : value_of 1000 (e + 1) = value_of (10 * 1000) e.
Proof. unfold value_of. replace (e + 1 - 3)%Z with (1 + (e - 3))%Z by lia. rewrite p10_add, p10_1, qn_mult. ring. Qed.
(** the number shown, and the scaled number *)
Lemma shown x : (0 < x)%num -> exists y e, (qn 1000 <= y)%num /\ (y < qn (10 * 1000))%num /\ x = (y * p10 (e - 3))%num /\
  parse_float (fmt_e3 x) = Some (value_of (round_even y) e).
Proof.
  intros Hx. destruct (parse_fmt x Hx) as (r & e' & E & Hr & ->). destruct (sci_spec x Hx) as (m & e & Es & [H1 H2] & Ex).
  exists (m * qn 1000)%num, e. split; [|split; [|split]].
  - replace (qn 1000) with (1 * qn 1000)%num at 1 by ring. apply Qcmult_le_compat_r; [exact H1|apply qn_nonneg].
  - rewrite qn_mult. apply Qcmult_lt_compat_r; [reflexivity|exact H2].
  - rewrite Ex. rewrite <- Z.add_opp_r, p10_add. change (- (3))%Z with (-3)%Z. rewrite p10_m3. field. discriminate.
  - unfold four in E. rewrite Es in E. destruct (Nat.eqb_spec (round_even (m * qn 1000)%num) (10 * 1000)) as [E1|E1]; injection E as <- <-; [|reflexivity].
    rewrite E1. f_equal. apply value_of_10000.
Qed.
Lemma value_of_le a b e : a <= b -> (value_of a e <= value_of b e)%num.
Proof. intros H. unfold value_of. apply Qcmult_le_compat_r; [now apply qn_le|apply Qclt_le_weak, p10_pos]. Qed.
Lemma value_of_up r e f : r <= 10 * 1000 -> (f < e)%Z -> (value_of r f <= value_of 1000 e)%num.
Proof.
  intros Hr Hf. eapply Qcle_trans; [apply (value_of_le r (10 * 1000)); exact Hr|]. rewrite <- value_of_10000. unfold value_of.
  replace (e - 3)%Z with ((f + 1 - 3) + (e - f - 1))%Z by lia. rewrite p10_add. assert (G := p10_ge (e - f - 1) ltac:(lia)). assert (P := p10_pos (f + 1 - 3)).
  rewrite Qcmult_assoc. set (u := (qn 1000 * p10 (f + 1 - 3))%num). replace u with (u * 1)%num at 1 by ring.
  rewrite (Qcmult_comm u 1), (Qcmult_comm u). apply Qcmult_le_compat_r; [exact G|]. unfold u. apply Qclt_le_weak, qmult_pos; [reflexivity|exact P].
Qed.

(** * C185 *)
(** The waiting time shown by a name has four digits, is as near to the one given as such a number
    can be, and so is not further from it than one part in 2000. *)
Theorem C185_nearest : forall x, (0 < x)%num -> exists v, parse_float (fmt_e3 x) = Some v /\ four_digits v /\
  (forall y, four_digits y -> (dist v x <= dist y x)%num) /\ (dist v x <= x / qn 2000)%num.
Proof.
  intros x Hx. destruct (shown x Hx) as (y & e & H1 & H2 & Ex & E). exists (value_of (round_even y) e). split; [exact E|].
  assert (P := p10_pos (e - 3)). assert (Hy : (0 <= y)%num) by (eapply Qcle_trans; [|exact H1]; apply qn_nonneg).
  split; [|split].
  - destruct (parse_fmt x Hx) as (r & e' & _ & Hr & E'). rewrite E in E'. apply same_number in E'. rewrite E'. apply four_digits_value. eauto.
  - intros z Hz. apply four_digits_value in Hz. destruct Hz as (k & f & Hk & ->).
    assert (HI : forall j, (dist (value_of (round_even y) e) x <= dist (value_of j e) x)%num).
    { intros j. rewrite Ex, !value_of_scale, !dist_scale by exact P. apply Qcmult_le_compat_r; [now apply round_even_nearest|now apply Qclt_le_weak]. }
    assert (X1 : (value_of 1000 e <= x)%num) by (rewrite Ex; unfold value_of; apply Qcmult_le_compat_r; [exact H1|now apply Qclt_le_weak]).
    assert (X2 : (x <= value_of (10 * 1000) e)%num) by (rewrite Ex; unfold value_of; apply Qcmult_le_compat_r; [now apply Qclt_le_weak|now apply Qclt_le_weak]).
    destruct (Z.lt_trichotomy f e) as [Hf|[->|Hf]]; [|apply HI|].
    + eapply Qcle_trans; [apply (HI 1000)|]. assert (HV := value_of_up k e f ltac:(lia) Hf). assert (HR : (dist (value_of k f) x <= dist (value_of k f) x)%num) by apply Qcle_refl.
      apply dist_le in HR. apply dist_le. revert X1 HV HR. generalize (dist (value_of k f) x) (value_of k f) (value_of 1000 e). intros d a b X1 HV [K1 K2]. split; revert X1 HV K1 K2; qlra.
    + eapply Qcle_trans; [apply (HI (10 * 1000))|]. assert (HV := value_of_up (10 * 1000) f e ltac:(lia) Hf). assert (HV' := value_of_le 1000 k f ltac:(lia)).
      assert (HR : (dist (value_of k f) x <= dist (value_of k f) x)%num) by apply Qcle_refl. apply dist_le in HR. apply dist_le.
      revert X2 HV HV' HR. generalize (dist (value_of k f) x) (value_of k f) (value_of 1000 f) (value_of (10 * 1000) e). intros d a b c X2 HV HV' [K1 K2]. split; revert X2 HV HV' K1 K2; qlra.
  - rewrite Ex, value_of_scale, dist_scale by exact P. replace (y * p10 (e - 3) / qn 2000)%num with (y / qn 2000 * p10 (e - 3))%num by (field; discriminate).
    apply Qcmult_le_compat_r; [|now apply Qclt_le_weak]. eapply Qcle_trans; [now apply round_even_near|].
    replace (1 / 2)%num with (qn 1000 / qn 2000)%num by (now apply Qc_is_canon). unfold Qcdiv. apply Qcmult_le_compat_r; [exact H1|discriminate].
Qed.
Print Assumptions C185_nearest.
(** half way between two such numbers, the one with an even last digit is shown *)
Lemma round_even_half k : round_even (qn k + 1 / 2)%num = if Nat.even k then k else S k.
Proof.
  assert (Hp : (0 <= qn k + 1 / 2)%num) by (assert (H := qn_nonneg k); revert H; generalize (qn k); qhalf).
  destruct (round_even_cases _ Hp) as (j & H1 & H2 & H). assert (Ej : j = k).
  { assert (A : j < S k) by (apply Nat.nle_gt; intros L; apply qn_le in L; rewrite qn_S in L; revert L H1; generalize (qn k) (qn j); qhalf).
    assert (B : k < S j) by (apply Nat.nle_gt; intros L; apply qn_le in L; rewrite qn_S in L; revert L H2; generalize (qn k) (qn j); qhalf). lia. }
  subst j. destruct H as [[H _]|[[H _]|[_ H]]]; [exfalso; revert H; generalize (qn k); qhalf|exfalso; revert H; generalize (qn k); qhalf|exact H].
Qed.
Theorem C185_half_way : forall k a b x, 1000 <= k < 10 * 1000 -> (x * (2 * qn (10 ^ a)) = qn (2 * k + 1) * qn (10 ^ b))%num ->
  exists v, parse_float (fmt_e3 x) = Some v /\ (v * qn (10 ^ a) = qn (if Nat.even k then k else S k) * qn (10 ^ b))%num.
Proof.
  intros k a b x Hk E. set (z := (Z.of_nat b - Z.of_nat a)%Z).
  assert (E2 : qn (2 * k + 1) = (2 * (qn k + 1 / 2))%num) by (rewrite qn_plus, qn_mult; change (qn 2) with 2%num; change (qn 1) with 1%num; field; discriminate).
  assert (PA : p10 (Z.of_nat b) = (p10 z * p10 (Z.of_nat a))%num) by (rewrite <- p10_add; f_equal; unfold z; lia).
  assert (Qa := p10_pos (Z.of_nat a)).
  assert (Ex : x = ((qn k + 1 / 2) * p10 z)%num).
  { rewrite E2, <- !p10_nat, PA in E. replace x with (x * (2 * p10 (Z.of_nat a)) / (2 * p10 (Z.of_nat a)))%num by (field; repeat split; first [discriminate|now apply qneq_pos]). rewrite E. field; repeat split; first [discriminate|now apply qneq_pos]. }
  assert (K1 : (qn 1000 <= qn k)%num) by (apply qn_le; lia). assert (K2 : (qn k + 1 <= qn (10 * 1000))%num) by (rewrite <- qn_S; apply qn_le; lia).
  assert (Hx : (0 < x)%num). { rewrite Ex. apply qmult_pos; [|apply p10_pos]. assert (H := qn_nonneg k). revert H. generalize (qn k). qhalf. }
  destruct (shown x Hx) as (y & e & H1 & H2 & Ey & EF).
  assert (HN : forall u, (qn 1000 <= u)%num -> (u < qn (10 * 1000))%num -> normal (u / qn 1000)%num).
  { intros u U1 U2. rewrite qn_mult in U2. assert (EU : u = (u / qn 1000 * qn 1000)%num) by (field; discriminate). set (m := (u / qn 1000)%num) in *. clearbody m. subst u. split.
    - apply Qcnot_lt_le. intros L. revert U1. apply Qclt_not_le. replace (qn 1000) with (1 * qn 1000)%num at 2 by ring. apply Qcmult_lt_compat_r; [reflexivity|exact L].
    - apply Qcnot_le_lt. intros L. revert U2. apply Qcle_not_lt. apply Qcmult_le_compat_r; [exact L|apply qn_nonneg]. }
  assert (EU : (e - 3 = z)%Z /\ y = (qn k + 1 / 2)%num).
  { destruct (normal_unique (y / qn 1000)%num (e - 3) ((qn k + 1 / 2) / qn 1000)%num z) as [X1 X2].
    - now apply HN.
    - apply HN; revert K1 K2; generalize (qn 1000) (qn (10 * 1000)) (qn k); qhalf.
    - replace (y / qn 1000 * p10 (e - 3))%num with (x / qn 1000)%num by (rewrite Ey; field; discriminate). rewrite Ex. field; repeat split; discriminate.
    - split; [exact X1|]. replace y with (y / qn 1000 * qn 1000)%num by (field; discriminate). rewrite X2. field; repeat split; discriminate. }
  destruct EU as [Ez ->]. rewrite round_even_half in EF. eexists. split; [exact EF|]. unfold value_of. rewrite Ez, <- !p10_nat, PA. ring.
Qed.
Print Assumptions C185_half_way.
(** larger waiting times are shown as larger ones, or as the same *)
Theorem C185_order : forall x y v w, (0 < x)%num -> (x <= y)%num -> parse_float (fmt_e3 x) = Some v -> parse_float (fmt_e3 y) = Some w -> (v <= w)%num.
Proof.
  intros x y v w Hx Hxy Ev Ew. destruct (Qclt_le_dec w v) as [HL|HL]; [exfalso|exact HL].
  assert (Hy : (0 < y)%num) by (eapply Qclt_le_trans; eassumption).
  destruct (C185_nearest x Hx) as (v' & Ev' & Fv & Nv & _). rewrite Ev in Ev'. apply same_number in Ev'. subst v'.
  destruct (C185_nearest y Hy) as (w' & Ew' & Fw & Nw & _). rewrite Ew in Ew'. apply same_number in Ew'. subst w'.
  specialize (Nv w Fw). specialize (Nw v Fv).
  assert (EX : x = y).
  { apply Qcle_antisym; [exact Hxy|]. unfold dist, qabs in Nv, Nw.
    destruct (qltb_spec (v - x)%num 0%num) as [A|A], (qltb_spec (w - x)%num 0%num) as [B|B], (qltb_spec (w - y)%num 0%num) as [C|C], (qltb_spec (v - y)%num 0%num) as [D|D];
      revert A B C D Nv Nw HL Hxy; generalize v w x y; qlra. }
  subst y. rewrite Ev in Ew. apply same_number in Ew. subst w. revert HL. apply Qcle_not_lt, Qcle_refl.
Qed.
Print Assumptions C185_order.
(** waiting times that differ by more than one part in a thousand have different names *)
Theorem C185_names_differ : forall x y, (0 < x)%num -> (x * qn 1000 <= y * qn 999)%num -> fmt_e3 x <> fmt_e3 y.
Proof.
  intros x y Hx Hxy E. assert (Hy : (0 < y)%num).
  { apply Qcnot_le_lt. intros L. assert (A : (0 < x * qn 1000)%num) by (apply qmult_pos; [exact Hx|reflexivity]). assert (B : (y * qn 999 <= 0 * qn 999)%num) by (apply Qcmult_le_compat_r; [exact L|apply qn_nonneg]).
    revert A Hxy B. generalize (x * qn 1000)%num (y * qn 999)%num. intros a b A Hxy B. replace (0 * qn 999)%num with 0%num in B by ring. revert A Hxy B. qlra. }
  destruct (C185_nearest x Hx) as (v & Ev & _ & _ & Dv). destruct (C185_nearest y Hy) as (w & Ew & _ & _ & Dw). rewrite E, Ew in Ev. apply same_number in Ev. subst w.
  apply dist_le in Dv, Dw. destruct Dv as [D1 _], Dw as [_ D2]. unfold Qcdiv in D1, D2.
  replace (/ qn 2000)%num with (qf 1 2000) in D1, D2 by (now apply Qc_is_canon).
  qc_this. qc_push. change (this (qn 1000)) with (1000 # 1)%Q in *. change (this (qn 999)) with (999 # 1)%Q in *. change (this (qf 1 2000)) with (1 # 2000)%Q in *. lra.
Qed.
Print Assumptions C185_names_differ.
Example C185_applies :
  parse_float (fmt_e3 (qf 12345 10000)) = Some (qf 1234 1000) /\ (qf 12345 10000 * (2 * qn (10 ^ 3)) = qn (2 * 1234 + 1) * qn (10 ^ 0))%num /\
  parse_float (fmt_e3 (qf 99996 100)) = Some (qn 1000) /\ (qn 1 * qn 1000 <= qf 1002 1000 * qn 999)%num.
Proof.
  split; [vm_compute; f_equal; now apply Qc_is_canon|]. split; [now apply Qc_is_canon|]. split; [vm_compute; f_equal; now apply Qc_is_canon|]. unfold Qcle, Qle. vm_compute. discriminate.
Qed.
