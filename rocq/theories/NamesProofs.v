(** Proofs about the names of files: numbers and their formats, parts of names. *)
From Coq Require Import Ascii String Qround Qpower Lqa.
From Verif Require Import Base LouvainModel SparseModel EventsModel TransModel FileModel FileSpec FileProofs NamesModel NamesSpec.
Local Open Scope list_scope.

(** * Powers of ten *)
Lemma this_p10 e : (this (p10 e) == (inject_Z 10) ^ e)%Q.
Proof.
  unfold p10. destruct (Z.ltb_spec e 0) as [L|L].
  - unfold Qcdiv. rewrite this_mult. rewrite this_Q2Qc. setoid_replace (this (/ qz (10 ^ (- e)))) with (/ inject_Z (10 ^ (- e)))%Q.
    + rewrite Zpower_Qpower by lia. rewrite Qpower_opp, Qinv_involutive. ring.
    + unfold Qcinv, qz. rewrite this_Q2Qc. now rewrite this_Q2Qc.
  - unfold qz. rewrite this_Q2Qc. now rewrite Zpower_Qpower by lia.
Qed.
Lemma p10_add a b : p10 (a + b) = (p10 a * p10 b)%num.
Proof. apply qc_eq_this. rewrite this_mult, !this_p10. apply Qpower_plus. discriminate. Qed.
Lemma p10_0 : p10 0 = 1%num.
Proof. now apply Qc_is_canon. Qed.
Lemma p10_1 : p10 1 = qn 10.
Proof. now apply Qc_is_canon. Qed.
Lemma p10_m1 : p10 (-1) = (1 / qn 10)%num.
Proof. now apply Qc_is_canon. Qed.
Lemma p10_pos e : (0 < p10 e)%num.
Proof.
  unfold p10. destruct (Z.ltb_spec e 0) as [L|L].
  - unfold Qcdiv. apply qmult_pos; [reflexivity|]. apply qinv_pos. apply qc_lt_this. unfold qz. rewrite !this_Q2Qc. change 0%Q with (inject_Z 0). rewrite <- Zlt_Qlt. apply Z.pow_pos_nonneg; lia.
  - apply qc_lt_this. unfold qz. rewrite !this_Q2Qc. change 0%Q with (inject_Z 0). rewrite <- Zlt_Qlt. apply Z.pow_pos_nonneg; lia.
Qed.
Lemma p10_nat k : p10 (Z.of_nat k) = qn (10 ^ k).
Proof.
  unfold p10. destruct (Z.ltb_spec (Z.of_nat k) 0) as [L|_]; [lia|]. unfold qn. f_equal. rewrite Nat2Z.inj_pow. reflexivity.
Qed.
Lemma p10_opp e : (p10 e * p10 (- e) = 1)%num.
Proof. rewrite <- p10_add. rewrite Z.add_opp_diag_r. apply p10_0. Qed.

(** * Mantissa and exponent *)
Definition normal (m : num) : Prop := (1 <= m)%num /\ (m < qn 10)%num.
Lemma sci_normal fuel m e : normal m -> sci fuel m e = (m, e).
Proof.
  intros [H1 H2]. destruct fuel as [|fuel]; [reflexivity|]. cbn [sci].
  destruct (qleb_spec (qn 10) m) as [L|_]; [exfalso; revert H2; now apply Qcle_not_lt|].
  destruct (qltb_spec m 1%num) as [L|_]; [exfalso; revert L; now apply Qcle_not_lt|]. reflexivity.
Qed.
Lemma pow2_S fuel : qz (2 ^ Z.of_nat (S fuel)) = (2 * qz (2 ^ Z.of_nat fuel))%num.
Proof.
  apply qc_eq_this. unfold qz. rewrite this_mult, !this_Q2Qc. change 2%Q with (inject_Z 2). rewrite <- inject_Z_mult.
  rewrite Nat2Z.inj_succ, Z.pow_succ_r by lia. reflexivity.
Qed.
Ltac q10 := qc_this; qc_push; change (this (qn 10)) with (10 # 1)%Q in *; lra.
Lemma pow2_pos fuel : (0 < qz (2 ^ Z.of_nat fuel))%num.
Proof. apply qc_lt_this. unfold qz. rewrite !this_Q2Qc. change 0%Q with (inject_Z 0). rewrite <- Zlt_Qlt. apply Z.pow_pos_nonneg; lia. Qed.
Lemma sci_big fuel : forall x e, (1 <= x)%num -> (x < qz (2 ^ Z.of_nat fuel))%num -> exists m e', sci fuel x e = (m, e') /\ normal m /\ (x * p10 e = m * p10 e')%num.
Proof.
  induction fuel as [|fuel IH]; intros x e H1 H2.
  - exfalso. revert H2. now apply Qcle_not_lt.
  - destruct (Qclt_le_dec x (qn 10)) as [L|L].
    + exists x, e. split; [apply sci_normal; now split|]. split; [now split|reflexivity].
    + cbn [sci]. destruct (qleb_spec (qn 10) x) as [_|N]; [|contradiction].
      assert (EX : x = (x / qn 10 * qn 10)%num) by (field; discriminate). set (y := (x / qn 10)%num) in *. clearbody y. subst x.
      rewrite pow2_S in H2. assert (P0 := pow2_pos fuel). set (Q := qz (2 ^ Z.of_nat fuel)) in *. clearbody Q.
      destruct (IH y (e + 1)%Z) as (m & e' & E & Hm & Hx).
      * q10.
      * q10.
      * exists m, e'. split; [exact E|]. split; [exact Hm|]. rewrite <- Hx, p10_add, p10_1. ring.
Qed.
Lemma sci_small fuel : forall x e, (0 < x)%num -> (x < 1)%num -> (1 <= x * qz (2 ^ Z.of_nat fuel))%num -> exists m e', sci fuel x e = (m, e') /\ normal m /\ (x * p10 e = m * p10 e')%num.
Proof.
  induction fuel as [|fuel IH]; intros x e H0 H1 H2.
  - exfalso. change (qz (2 ^ Z.of_nat 0)) with 1%num in H2. rewrite Qcmult_1_r in H2. revert H1. now apply Qcle_not_lt.
  - cbn [sci]. destruct (qleb_spec (qn 10) x) as [L|_].
    { exfalso. revert H1. apply Qcle_not_lt. eapply Qcle_trans; [|exact L]. discriminate. }
    destruct (qltb_spec x 1%num) as [_|N]; [|contradiction].
    assert (HE : (x * p10 e = x * qn 10 * p10 (e - 1))%num).
    { rewrite <- Z.add_opp_r, p10_add. change (- (1))%Z with (-1)%Z. rewrite p10_m1. field. discriminate. }
    destruct (Qclt_le_dec (x * qn 10)%num 1%num) as [L|L].
    + destruct (IH (x * qn 10)%num (e - 1)%Z) as (m & e' & E & Hm & Hx); [apply qmult_pos; [exact H0|reflexivity]|exact L| |].
      * rewrite pow2_S in H2. assert (P1 : (0 < x * qz (2 ^ Z.of_nat fuel))%num) by (apply qmult_pos; [exact H0|apply pow2_pos]).
        replace (x * qn 10 * qz (2 ^ Z.of_nat fuel))%num with (qn 10 * (x * qz (2 ^ Z.of_nat fuel)))%num by ring.
        replace (x * (2 * qz (2 ^ Z.of_nat fuel)))%num with (2 * (x * qz (2 ^ Z.of_nat fuel)))%num in H2 by ring.
        set (Q := (x * qz (2 ^ Z.of_nat fuel))%num) in *. clearbody Q. q10.
      * exists m, e'. split; [exact E|]. split; [exact Hm|]. now rewrite HE.
    + assert (Hn : normal (x * qn 10)%num).
      { split; [exact L|]. q10. }
      exists (x * qn 10)%num, (e - 1)%Z. split; [now apply sci_normal|]. split; [exact Hn|exact HE].
Qed.
Lemma size_bound p : (Zpos p < 2 ^ Z.of_nat (Pos.size_nat p))%Z.
Proof. induction p as [p IH|p IH|]; cbn [Pos.size_nat]; rewrite ?Nat2Z.inj_succ, ?Z.pow_succ_r by lia; lia. Qed.
Lemma pow2_mono a b : (a <= b)%nat -> (2 ^ Z.of_nat a <= 2 ^ Z.of_nat b)%Z.
Proof. intros H. apply Z.pow_le_mono_r; lia. Qed.
Lemma sci_spec x : (0 < x)%num -> exists m e, sci (sci_fuel x) x 0 = (m, e) /\ normal m /\ x = (m * p10 e)%num.
Proof.
  intros H0. assert (HN : (0 < Qnum (this x))%Z) by (unfold Qclt, Qlt in H0; cbn in H0; lia).
  assert (G : exists m e, sci (sci_fuel x) x 0 = (m, e) /\ normal m /\ (x * p10 0 = m * p10 e)%num).
  { destruct (Qclt_le_dec x 1%num) as [L|L].
    - apply sci_small; [exact H0|exact L|]. apply qc_le_this. unfold qz. rewrite this_mult, !this_Q2Qc.
      destruct (this x) as [a b] eqn:E. cbn [Qnum] in HN. unfold Qle, Qmult, inject_Z. cbn. rewrite E. cbn [Qnum Qden].
      assert (B := size_bound b). assert (P : (2 ^ Z.of_nat (Pos.size_nat b) <= 2 ^ Z.of_nat (sci_fuel x))%Z) by (apply pow2_mono; unfold sci_fuel; rewrite E; cbn [Qden Qnum]; lia).
      unfold sci_fuel in P. rewrite E in P. cbn [Qnum Qden] in P. rewrite Pos.mul_1_r. destruct a; try lia; nia.
    - apply sci_big; [exact L|]. apply qc_lt_this. unfold qz. rewrite this_Q2Qc.
      destruct (this x) as [a b] eqn:E. cbn [Qnum] in HN. unfold Qlt, inject_Z. rewrite ?E. cbn [Qnum Qden].
      destruct a as [|a|a]; try lia. assert (B := size_bound a).
      assert (P : (2 ^ Z.of_nat (Pos.size_nat a) <= 2 ^ Z.of_nat (sci_fuel x))%Z) by (apply pow2_mono; unfold sci_fuel; rewrite E; cbn [Qden Qnum Z.to_pos]; lia).
      nia. }
  destruct G as (m & e & E & Hm & Hx). exists m, e. split; [exact E|]. split; [exact Hm|]. rewrite <- Hx, p10_0. ring.
Qed.

(** * Four digits *)
Lemma floor_qn k : Qfloor (this (qn k)) = Z.of_nat k.
Proof. rewrite (Qfloor_comp _ _ (this_qn k)). apply Qfloor_Z. Qed.
Lemma round_even_int k : round_even (qn k) = k.
Proof.
  unfold round_even. rewrite floor_qn. change (qz (Z.of_nat k)) with (qn k). replace (qn k - qn k)%num with 0%num by ring.
  destruct (qltb_spec 0%num (1 / 2)%num) as [_|N]; [apply Nat2Z.id|]. exfalso. apply N. reflexivity.
Qed.
Lemma this_qz z : (this (qz z) == inject_Z z)%Q.
Proof. unfold qz. apply this_Q2Qc. Qed.
Lemma round_even_bounds y a b : (qn a <= y)%num -> (y <= qn b)%num -> a <= round_even y <= b.
Proof.
  intros Ha Hb. unfold round_even. set (f := Qfloor (this y)). unfold Qcle in Ha, Hb. rewrite this_qn in Ha, Hb.
  assert (F1 : (inject_Z f <= this y)%Q) by apply Qfloor_le. assert (F2 : (this y < inject_Z (f + 1))%Q) by apply Qlt_floor.
  assert (Fa : (Z.of_nat a <= f)%Z) by (assert (X : (inject_Z (Z.of_nat a) < inject_Z (f + 1))%Q) by (eapply Qle_lt_trans; eassumption); rewrite <- Zlt_Qlt in X; lia).
  assert (Fb : (f <= Z.of_nat b)%Z) by (assert (X : (inject_Z f <= inject_Z (Z.of_nat b))%Q) by (eapply Qle_trans; eassumption); now rewrite <- Zle_Qle in X).
  assert (Fc : (f = Z.of_nat b)%Z -> (y - qz f)%num = 0%num).
  { intros E. apply qc_eq_this. rewrite this_minus, this_qz, this_Q2Qc. rewrite E in *. lra. }
  destruct (qltb_spec (y - qz f)%num (1 / 2)%num) as [L|L]; [lia|].
  assert (f <> Z.of_nat b). { intros E. apply L. rewrite (Fc E). reflexivity. }
  destruct (qltb (1 / 2)%num (y - qz f)%num); [lia|]. destruct (Z.even f); lia.
Qed.
Lemma p10_ge k : (0 <= k)%Z -> (1 <= p10 k)%num.
Proof.
  intros H. unfold p10. destruct (Z.ltb_spec k 0) as [L|_]; [lia|]. unfold Qcle. rewrite this_qz, this_Q2Qc. change 1%Q with (inject_Z 1). rewrite <- Zle_Qle.
  assert (0 < 10 ^ k)%Z by (apply Z.pow_pos_nonneg; lia). lia.
Qed.
Lemma exponent_unique m e m' e' : normal m -> normal m' -> (m * p10 e = m' * p10 e')%num -> (e < e')%Z -> False.
Proof.
  intros [H1 H2] [H3 H4] E L. replace e' with (e + (1 + (e' - e - 1)))%Z in E by lia. rewrite !p10_add, p10_1 in E.
  assert (P := p10_pos e). assert (G := p10_ge (e' - e - 1) ltac:(lia)). set (u := p10 (e' - e - 1)) in *. clearbody u. set (v := p10 e) in *. clearbody v.
  assert (E' : m = (m' * (qn 10 * u))%num).
  { replace m with (m * v / v)%num by (field; now apply qneq_pos). rewrite E. field. now apply qneq_pos. }
  assert (Hu : (qn 10 <= qn 10 * u)%num). { q10. }
  assert (Hm : (qn 10 * u <= m' * (qn 10 * u))%num).
  { replace (qn 10 * u)%num with (1 * (qn 10 * u))%num at 1 by ring. apply Qcmult_le_compat_r; [exact H3|]. eapply Qcle_trans; [|exact Hu]. discriminate. }
  rewrite <- E' in Hm. revert H2. apply Qcle_not_lt. eapply Qcle_trans; eassumption.
Qed.
Lemma normal_unique m e m' e' : normal m -> normal m' -> (m * p10 e = m' * p10 e')%num -> e = e' /\ m = m'.
Proof.
  intros H H' E. assert (X : e = e').
  { destruct (Z.lt_trichotomy e e') as [L|[L|L]]; [exfalso; now apply (exponent_unique m e m' e')|exact L|exfalso; now apply (exponent_unique m' e' m e)]. }
  split; [exact X|]. subst e'. assert (P := p10_pos e). replace m with (m * p10 e / p10 e)%num by (field; now apply qneq_pos). rewrite E. field. now apply qneq_pos.
Qed.
Lemma four_spec x : (0 < x)%num -> exists r e, four x = (r, e) /\ 1000 <= r < 10 * 1000.
Proof.
  intros H. destruct (sci_spec x H) as (m & e & E & [H1 H2] & _). unfold four. rewrite E.
  assert (B : 1000 <= round_even (m * qn 1000)%num <= 10 * 1000).
  { apply round_even_bounds.
    - replace (qn 1000) with (1 * qn 1000)%num at 1 by ring. apply Qcmult_le_compat_r; [exact H1|apply qn_nonneg].
    - rewrite qn_mult. apply Qcmult_le_compat_r; [now apply Qclt_le_weak|apply qn_nonneg]. }
  destruct (Nat.eqb_spec (round_even (m * qn 1000)%num) (10 * 1000)) as [_|N]; eexists _, _; (split; [reflexivity|lia]).
Qed.
Lemma thousand_normal m : 1000 <= m < 10 * 1000 -> normal (qn m / qn 1000)%num.
Proof.
  intros [H1 H2]. assert (E : qn m = (qn m / qn 1000 * qn 1000)%num) by (field; discriminate).
  apply qn_le in H1. apply qn_lt in H2. rewrite qn_mult in H2. rewrite E in H1, H2. set (y := (qn m / qn 1000)%num) in *. clearbody y.
  split; qc_this; qc_push; change (this (qn 1000)) with (1000 # 1)%Q in *; change (this (qn 10)) with (10 # 1)%Q in *; lra.
Qed.
Lemma p10_m3 : p10 (-3) = (1 / qn 1000)%num.
Proof. now apply Qc_is_canon. Qed.
Lemma four_exact m e : 1000 <= m < 10 * 1000 -> four (qn m * p10 (e - 3))%num = (m, e).
Proof.
  intros Hm. set (x := (qn m * p10 (e - 3))%num). assert (Hx : (0 < x)%num) by (apply qmult_pos; [apply (qn_lt 0); lia|apply p10_pos]).
  destruct (sci_spec x Hx) as (m' & e' & E & Hn & Ex). unfold four. rewrite E.
  assert (EX : x = (qn m / qn 1000 * p10 e)%num).
  { unfold x. rewrite <- Z.add_opp_r, p10_add. change (- (3))%Z with (-3)%Z. rewrite p10_m3. unfold Qcdiv. ring. }
  destruct (normal_unique (qn m / qn 1000)%num e m' e' (thousand_normal m Hm) Hn) as [<- <-]; [now rewrite <- EX|].
  replace (qn m / qn 1000 * qn 1000)%num with (qn m) by (field; discriminate). rewrite round_even_int.
  destruct (Nat.eqb_spec m (10 * 1000)); [lia|reflexivity].
Qed.
Definition value_of (r : nat) (e : Z) : num := (qn r * p10 (e - 3))%num.
Lemma four_digits_value x : four_digits x <-> exists m e, 1000 <= m < 10 * 1000 /\ x = value_of m e.
Proof.
  split.
  - intros (m & a & b & Hm & E).
    assert (Ex : x = (qn m * p10 (Z.of_nat b - Z.of_nat a))%num).
    { rewrite <- !p10_nat in E. rewrite <- Z.add_opp_r, p10_add.
      replace x with (x * p10 (Z.of_nat a) * p10 (- Z.of_nat a))%num by (rewrite <- Qcmult_assoc, p10_opp; ring). rewrite E. ring. }
    set (z := (Z.of_nat b - Z.of_nat a)%Z) in *. clearbody z. clear E.
    assert (G : exists j, 1000 <= m * 10 ^ j < 10 * 1000).
    { destruct (le_lt_dec 1000 m); [exists 0; rewrite Nat.pow_0_r; lia|]. destruct (le_lt_dec 100 m); [exists 1; change (10 ^ 1) with 10; lia|].
      destruct (le_lt_dec 10 m); [exists 2; change (10 ^ 2) with 100; lia|]. exists 3. change (10 ^ 3) with 1000. lia. }
    destruct G as (j & Hj). exists (m * 10 ^ j), (z - Z.of_nat j + 3)%Z. split; [exact Hj|]. rewrite Ex. unfold value_of. rewrite qn_mult, <- p10_nat.
    rewrite <- Qcmult_assoc, <- p10_add. f_equal. f_equal. lia.
  - intros (m & e & Hm & ->). unfold value_of. destruct (Z.le_gt_cases 0 (e - 3)) as [L|L].
    + exists m, 0, (Z.to_nat (e - 3)). split; [lia|]. rewrite <- p10_nat, <- p10_nat, Z2Nat.id by exact L. change (Z.of_nat 0) with 0%Z. rewrite p10_0. ring.
    + exists m, (Z.to_nat (- (e - 3))), 0. split; [lia|]. rewrite <- !p10_nat, Z2Nat.id by lia. rewrite <- Qcmult_assoc, p10_opp. change (Z.of_nat 0) with 0%Z. now rewrite p10_0.
Qed.
Lemma value_of_pos r e : 0 < r -> (0 < value_of r e)%num.
Proof. intros H. apply qmult_pos; [now apply (qn_lt 0)|apply p10_pos]. Qed.
Lemma four_digits_pos x : four_digits x -> (0 < x)%num.
Proof. intros H. apply four_digits_value in H. destruct H as (m & e & Hm & ->). apply value_of_pos. lia. Qed.

(** * Formats *)
Lemma below_ten (P : nat -> Prop) : (forall d, d < 10 -> P d) <-> (P 0 /\ P 1 /\ P 2 /\ P 3 /\ P 4 /\ P 5 /\ P 6 /\ P 7 /\ P 8 /\ P 9).
Proof.
  split; [intros H; repeat split; apply H; lia|]. intros H d Hd. do 10 (destruct d as [|d]; [tauto|]). lia.
Qed.
Lemma digit_value_digit : forall d, d < 10 -> digit_value (digit d) = Some d.
Proof. apply below_ten. repeat split. Qed.
Lemma digit_is : forall d, d < 10 -> is_digit (digit d) = true.
Proof. intros d H. unfold is_digit. now rewrite digit_value_digit. Qed.
Lemma digit_neq d c : d < 10 -> is_digit c = false -> Ascii.eqb (digit d) c = false.
Proof. intros H Hc. apply Ascii.eqb_neq. intros <-. rewrite digit_is in Hc by exact H. discriminate. Qed.
Lemma read_app p : forall acc q, read_digits acc (p ++ q) = match read_digits acc p with Some v => read_digits v q | None => None end.
Proof. induction p as [|c p IH]; intros acc q; cbn [read_digits app]; [reflexivity|]. destruct (digit_value c); [apply IH|reflexivity]. Qed.
Definition all_digits (p : path) : Prop := forall c, In c p -> is_digit c = true.
Lemma digits_of_spec fuel : forall k acc, k < fuel -> exists l, digits_of fuel k acc = l ++ acc /\ l <> [] /\ all_digits l /\ forall a, read_digits a l = Some (a * 10 ^ length l + k).
Proof.
  induction fuel as [|fuel IH]; intros k acc H; [lia|]. cbn [digits_of]. destruct (Nat.ltb_spec k 10) as [L|L].
  - exists [digit k]. split; [reflexivity|]. split; [discriminate|]. split; [intros c [<-|[]]; now apply digit_is|].
    intros a. cbn [read_digits length]. rewrite digit_value_digit by exact L. f_equal. rewrite Nat.pow_1_r. lia.
  - assert (Hm : k mod 10 < 10) by (apply Nat.mod_upper_bound; lia). assert (Hd := Nat.div_mod k 10 ltac:(lia)).
    assert (HK : k / 10 < fuel) by (assert (k / 10 < k) by (apply Nat.div_lt; lia); lia).
    destruct (IH (k / 10) (digit (k mod 10) :: acc) HK) as (l & E & Hne & Hl & Hr).
    exists (l ++ [digit (k mod 10)]). split; [rewrite E, <- app_assoc; reflexivity|]. split; [intros X; apply app_eq_nil in X; destruct X; discriminate|]. split.
    + intros c Hc. apply in_app_iff in Hc. destruct Hc as [Hc|[<-|[]]]; [now apply Hl|now apply digit_is].
    + intros a. rewrite read_app, Hr. cbn [read_digits]. rewrite digit_value_digit by exact Hm. f_equal. rewrite app_length. cbn [length]. rewrite Nat.add_1_r, Nat.pow_succ_r'. lia.
Qed.
Lemma dec_spec k : dec k <> [] /\ all_digits (dec k) /\ forall a, read_digits a (dec k) = Some (a * 10 ^ length (dec k) + k).
Proof. unfold dec. destruct (digits_of_spec (S k) k [] ltac:(lia)) as (l & -> & H). now rewrite app_nil_r. Qed.
Lemma read_zeros j : read_digits 0 (repeat (digit 0) j) = Some 0.
Proof. induction j as [|j IH]; [reflexivity|]. cbn [repeat read_digits]. rewrite digit_value_digit by lia. exact IH. Qed.
Lemma padded_digits w k : all_digits (padded w k).
Proof.
  intros c Hc. unfold padded in Hc. apply in_app_iff in Hc. destruct Hc as [Hc|Hc]; [|now apply dec_spec in Hc].
  apply repeat_spec in Hc. subst c. reflexivity.
Qed.
Lemma parse_padded w k : parse_int (padded w k) = Some k.
Proof.
  destruct (dec_spec k) as (Hne & _ & Hr). assert (R : read_digits 0 (padded w k) = Some k).
  { unfold padded. rewrite read_app, read_zeros, Hr. reflexivity. }
  unfold parse_int. destruct (padded w k) eqn:E; [|exact R]. exfalso. unfold padded in E. apply app_eq_nil in E. now apply Hne.
Qed.
Lemma padded_length w k : w <= length (padded w k).
Proof. unfold padded. rewrite app_length, repeat_length. lia. Qed.
Lemma padded_inj w k k' : padded w k = padded w k' -> k = k'.
Proof. intros H. assert (E := parse_padded w k). rewrite H, parse_padded in E. now injection E as ->. Qed.

Lemma cut_app c p q : ~ In c p -> cut c (p ++ c :: q) = (p, Some q).
Proof.
  induction p as [|x p IH]; intros H; cbn [cut app]; [now rewrite Ascii.eqb_refl|]. destruct (Ascii.eqb_spec x c) as [->|_]; [exfalso; apply H; now left|].
  rewrite IH; [reflexivity|]. intros X. apply H. now right.
Qed.
Lemma digits_no c p : all_digits p -> is_digit c = false -> ~ In c p.
Proof. intros H Hc X. rewrite (H c X) in Hc. discriminate. Qed.
Lemma four_digits_read r : r < 10 * 1000 -> parse_int [digit (r / 1000); digit (r / 100 mod 10); digit (r / 10 mod 10); digit (r mod 10)] = Some r.
Proof.
  intros H. assert (H1 : r / 1000 < 10) by (apply Nat.div_lt_upper_bound; lia). cbn [parse_int read_digits].
  assert (M : forall a, a mod 10 < 10) by (intros a; apply Nat.mod_upper_bound; lia).
  rewrite !digit_value_digit by (try exact H1; apply M). f_equal.
  assert (D1 := Nat.div_mod r 10 ltac:(lia)). assert (D2 := Nat.div_mod (r / 10) 10 ltac:(lia)). assert (D3 := Nat.div_mod (r / 100) 10 ltac:(lia)).
  replace (r / 10 / 10) with (r / 100) in D2 by (rewrite Nat.div_div by lia; f_equal). replace (r / 100 / 10) with (r / 1000) in D3 by (rewrite Nat.div_div by lia; f_equal).
  lia.
Qed.
Theorem parse_fmt x : (0 < x)%num -> exists r e, four x = (r, e) /\ 1000 <= r < 10 * 1000 /\ parse_float (fmt_e3 x) = Some (value_of r e).
Proof.
  intros Hx. destruct (four_spec x Hx) as (r & e & E & Hr). exists r, e. split; [exact E|]. split; [exact Hr|].
  unfold fmt_e3. rewrite E. unfold parse_float. set (s := if (e <? 0)%Z then "-"%char else "+"%char).
  set (ds := [digit (r / 100 mod 10); digit (r / 10 mod 10); digit (r mod 10)]).
  assert (M : forall a, a mod 10 < 10) by (intros a; apply Nat.mod_upper_bound; lia).
  assert (H1 : r / 1000 < 10) by (apply Nat.div_lt_upper_bound; lia).
  assert (Hds : all_digits ds) by (intros c [<-|[<-|[<-|[]]]]; apply digit_is, M).
  assert (Hd1 : all_digits [digit (r / 1000)]) by (intros c [<-|[]]; now apply digit_is).
  change (digit (r / 1000) :: "."%char :: digit (r / 100 mod 10) :: digit (r / 10 mod 10) :: digit (r mod 10) :: "e"%char :: s :: padded 2 (Z.abs_nat e))
    with (([digit (r / 1000)] ++ "."%char :: ds) ++ "e"%char :: s :: padded 2 (Z.abs_nat e)).
  rewrite cut_app.
  - rewrite cut_app by now apply digits_no. change ([digit (r / 1000)] ++ ds) with [digit (r / 1000); digit (r / 100 mod 10); digit (r / 10 mod 10); digit (r mod 10)].
    rewrite four_digits_read by lia. change (Z.of_nat (length ds)) with 3%Z.
    assert (PE : parse_exponent (Some (s :: padded 2 (Z.abs_nat e))) = Some e).
    { cbn [parse_exponent]. unfold s. destruct (Z.ltb_spec e 0) as [L|L]; cbn [Ascii.eqb Bool.eqb]; rewrite parse_padded; cbn [option_map]; f_equal; lia. }
    rewrite PE. reflexivity.
  - intros X. apply in_app_iff in X. destruct X as [X|[X|X]]; [revert X; now apply digits_no|discriminate|revert X; now apply digits_no].
Qed.
Lemma fmt_exact r e : 1000 <= r < 10 * 1000 -> parse_float (fmt_e3 (value_of r e)) = Some (value_of r e).
Proof.
  intros H. destruct (parse_fmt (value_of r e)) as (r' & e' & E & _ & P); [apply value_of_pos; lia|]. unfold value_of in E at 1. rewrite four_exact in E by exact H. injection E as <- <-. exact P.
Qed.
Lemma fmt_four x : four_digits x -> parse_float (fmt_e3 x) = Some x.
Proof. intros H. apply four_digits_value in H. destruct H as (r & e & Hr & ->). now apply fmt_exact. Qed.
Lemma fmt_inj x y : four_digits x -> four_digits y -> fmt_e3 x = fmt_e3 y -> x = y.
Proof. intros Hx Hy E. assert (F := fmt_four x Hx). rewrite E, fmt_four in F by exact Hy. now injection F. Qed.
(** characters of formatted numbers *)
Definition number_char (c : ascii) : Prop := is_digit c = true \/ c = "."%char \/ c = "e"%char \/ c = "-"%char \/ c = "+"%char.
Lemma fmt_chars x : (0 < x)%num -> forall c, In c (fmt_e3 x) -> number_char c.
Proof.
  intros Hx. destruct (four_spec x Hx) as (r & e & E & Hr). unfold fmt_e3. rewrite E. intros c Hc.
  assert (M : forall a, a mod 10 < 10) by (intros a; apply Nat.mod_upper_bound; lia). assert (H1 : r / 1000 < 10) by (apply Nat.div_lt_upper_bound; lia).
  unfold number_char. destruct Hc as [<-|[<-|[<-|[<-|[<-|[<-|[<-|Hc]]]]]]]; try (left; apply digit_is; now try apply M); auto.
  - destruct (e <? 0)%Z; auto.
  - left. now apply padded_digits in Hc.
Qed.
