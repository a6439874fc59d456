(** Property C196: the schedule of [make_step_block_probs]. *)
From Verif Require Import Base SynthModel SynthSpec SynthProps StepModel.
From Coq Require Import ZArith Lia.

(** ** Vocabulary *)
(** the two groups that exchange in the three rounds *)
Definition exchanging (k : nat) : Z * Z := match k with O => (0, 1)%Z | S O => (1, 2)%Z | _ => (0, 2)%Z end.
Definition is_group (g : Z) : Prop := (g = 0 \/ g = 1 \/ g = 2)%Z.
(** probabilities when groups mostly meet their own members *)
Definition own_groups (m1 : num) (P : list (list num)) : Prop :=
  forall g h, is_group g -> is_group h -> prob P g h = if (g =? h)%Z then m1 else ((1 - m1) / (1 + 1))%num.
(** probabilities when two groups mostly meet each other and the third one nobody *)
Definition exchange (a b : Z) (p1 : num) (P : list (list num)) : Prop :=
  forall g h, is_group g -> is_group h ->
    prob P g h = if (((g =? a) || (g =? b)) && ((h =? a) || (h =? b)))%bool%Z then if (g =? h)%Z then (1 - p1)%num else p1 else 0%num.
(** a longest period, from [s] included to [e] excluded, in which the probabilities are like that *)
Definition lasts (Q : list (list num) -> Prop) (f : num -> list (list num)) (s e : num) : Prop :=
  (s < e)%num /\ (forall t, (s <= t)%num -> (t < e)%num -> Q (f t)) /\ ~ Q (f e) /\ (forall s', (s' < s)%num -> exists t, (s' <= t)%num /\ (t < s)%num /\ ~ Q (f t)).

(** ** What the docstring says: the exchanging steps have length [deltat1] *)
Definition C196_statement : Prop := forall d1 d2 m1 p1 s e, (0 < d1)%num -> (0 < d2)%num ->
  lasts (exchange 0 1 p1) (step_block_probs d1 d2 m1 p1) s e -> (e - s)%num = d1.

Lemma own_within m1 : own_groups m1 (within m1).
Proof. intros g h [->|[->| ->]] [->|[->| ->]]; reflexivity. Qed.
Lemma exchange_12 p1 : exchange 0 1 p1 (ex12 p1).
Proof. intros g h [->|[->| ->]] [->|[->| ->]]; reflexivity. Qed.
Lemma exchange_23 p1 : exchange 1 2 p1 (ex23 p1).
Proof. intros g h [->|[->| ->]] [->|[->| ->]]; reflexivity. Qed.
Lemma exchange_13 p1 : exchange 0 2 p1 (ex13 p1).
Proof. intros g h [->|[->| ->]] [->|[->| ->]]; reflexivity. Qed.
(** comparisons *)
Lemma sel_true {X} a b c d (x y : X) : (a <= b)%num -> (c < d)%num -> (if (qleb a b && qltb c d)%bool then x else y) = x.
Proof. intros H1 H2. destruct (qleb_spec a b); [|contradiction]. destruct (qltb_spec c d); [reflexivity|contradiction]. Qed.
Lemma sel_left {X} a b c (x y : X) : (b < a)%num -> (if (qleb a b && c)%bool then x else y) = y.
Proof. intros H1. destruct (qleb_spec a b); [qlra|reflexivity]. Qed.
Lemma sel_right {X} a c d (x y : X) : (d <= c)%num -> (if (a && qltb c d)%bool then x else y) = y.
Proof. intros H1. destruct (qltb_spec c d); [qlra|]. now rewrite Bool.andb_false_r. Qed.
Lemma sel_last {X} a b c d (x y : X) : (a <= b)%num -> (c <= d)%num -> (if (qleb a b && qleb c d)%bool then x else y) = x.
Proof. intros H1 H2. destruct (qleb_spec a b); [|contradiction]. destruct (qleb_spec c d); [reflexivity|contradiction]. Qed.
Lemma sel_after {X} a c d (x y : X) : (d < c)%num -> (if (a && qleb c d)%bool then x else y) = y.
Proof. intros H1. destruct (qleb_spec c d); [qlra|]. now rewrite Bool.andb_false_r. Qed.
Ltac steps := unfold step_block_probs; cbv zeta; repeat first [rewrite sel_true by qlra|rewrite sel_left by qlra|rewrite sel_right by qlra|rewrite sel_last by qlra|rewrite sel_after by qlra].

Theorem C196_lengths_refuted : ~ C196_statement.
Proof.
  intros H. assert (K : (qn 3 - qn 1)%num = qn 1).
  { apply (H (qn 1) (qn 2) 1%num 1%num); [reflexivity|reflexivity|]. split; [reflexivity|]. split; [|split].
    - intros t H1 H2. replace (step_block_probs (qn 1) (qn 2) 1 1 t) with (ex12 1); [apply exchange_12|]. unfold step_block_probs. cbv zeta. destruct (qltb_spec t (qn 1)) as [K|K]; [qlra|]. rewrite Bool.andb_false_r.
      destruct (qleb_spec (qn 1) t) as [_|K1]; [|contradiction]. destruct (qltb_spec t (qn 1 + qn 2)%num) as [_|K1]; [reflexivity|]. exfalso. apply K1. replace (qn 1 + qn 2)%num with (qn 3) by (now apply Qc_is_canon). exact H2.
    - intros K. specialize (K 0%Z 0%Z (or_introl eq_refl) (or_introl eq_refl)). vm_compute in K. discriminate K.
    - intros s' Hs. exists (if qleb s' 0%num then 0%num else s'). destruct (qleb_spec s' 0%num) as [K|K].
      + split; [exact K|]. split; [reflexivity|]. intros KE. specialize (KE 0%Z 0%Z (or_introl eq_refl) (or_introl eq_refl)). vm_compute in KE. discriminate KE.
      + split; [apply Qcle_refl|]. split; [exact Hs|]. apply Qcnot_le_lt in K. replace (step_block_probs (qn 1) (qn 2) 1 1 s') with (within 1).
        * intros KE. specialize (KE 0%Z 0%Z (or_introl eq_refl) (or_introl eq_refl)). vm_compute in KE. discriminate KE.
        * unfold step_block_probs. cbv zeta. destruct (qleb_spec 0%num s') as [_|K1]; [|exfalso; apply K1, Qclt_le_weak, K]. destruct (qltb_spec s' (qn 1)) as [_|K1]; [reflexivity|contradiction]. }
  vm_compute in K. discriminate K.
Qed.
(** what holds: three rounds, in each of which groups meet their own members during [deltat1], and two of them
    each other during [deltat2] *)
Theorem C196_schedule_partial : forall d1 d2 m1 p1 k t, (0 <= d1)%num -> (0 <= d2)%num -> k < 3 ->
  let from := (qn k * (d1 + d2))%num in
  ((from <= t)%num -> (t < from + d1)%num -> own_groups m1 (step_block_probs d1 d2 m1 p1 t)) /\
  ((from + d1 <= t)%num -> (t < from + d1 + d2)%num -> exchange (fst (exchanging k)) (snd (exchanging k)) p1 (step_block_probs d1 d2 m1 p1 t)) /\
  (t = (qn 3 * (d1 + d2))%num -> exchange 0 2 p1 (step_block_probs d1 d2 m1 p1 t)) /\
  ((t < 0)%num \/ (qn 3 * (d1 + d2) < t)%num -> own_groups m1 (step_block_probs d1 d2 m1 p1 t)).
Proof.
  intros d1 d2 m1 p1 k t Hd1 Hd2 Hk from. assert (E0 : qn 0 = 0%num) by (now apply Qc_is_canon). assert (E1 : qn 1 = 1%num) by (now apply Qc_is_canon). assert (E2 : qn 2 = (1 + 1)%num) by (now apply Qc_is_canon). assert (E3 : qn 3 = (1 + 1 + 1)%num) by (now apply Qc_is_canon).
  split; [|split; [|split]].
  - intros H1 H2. destruct k as [|[|[|k]]]; [| | |lia]; unfold from in *; rewrite ?E0, ?E1, ?E2 in *; steps; apply own_within.
  - intros H1 H2. destruct k as [|[|[|k]]]; [| | |lia]; unfold from in *; rewrite ?E0, ?E1, ?E2 in *; cbn [exchanging fst snd]; steps; first [apply exchange_12|apply exchange_23|apply exchange_13].
  - intros ->. rewrite E3. steps. apply exchange_13.
  - intros H. rewrite E3 in H. destruct H as [H|H]; steps; apply own_within.
Qed.
Lemma half_rest_nonneg m1 : (m1 <= 1)%num -> (0 <= half_rest m1)%num.
Proof.
  intros H. assert (E : (half_rest m1 + half_rest m1 = 1 - m1)%num) by (unfold half_rest; field; discriminate). qlra.
Qed.
Lemma probabilities d1 d2 m1 p1 t : (0 <= m1)%num -> (m1 <= 1)%num -> (0 <= p1)%num -> (p1 <= 1)%num ->
  square 3 (step_block_probs d1 d2 m1 p1 t) /\ nonneg_rows (step_block_probs d1 d2 m1 p1 t) /\ forall row, In row (step_block_probs d1 d2 m1 p1 t) -> row_sum row = 0%num \/ row_sum row = 1%num.
Proof.
  intros M0 M1 P0 P1. pose proof (half_rest_nonneg m1 M1) as HH. assert (HP : (0 <= 1 - p1)%num) by qlra. assert (EH : (half_rest m1 + half_rest m1 = 1 - m1)%num) by (unfold half_rest; field; discriminate).
  assert (K : forall P, In P [within m1; ex12 p1; ex23 p1; ex13 p1] -> square 3 P /\ nonneg_rows P /\ forall row, In row P -> row_sum row = 0%num \/ row_sum row = 1%num).
  { assert (Z0 : (0 <= 0)%num) by apply Qcle_refl.
    assert (RS : forall a b c, row_sum [a; b; c] = (a + b + c)%num) by (intros; unfold row_sum; cbn [sumL map fold_right]; unfold sumL; cbn; ring).
    intros P [<-|[<-|[<-|[<-|[]]]]]; unfold within, ex12, ex23, ex13; cbv zeta; (split; [split; [reflexivity|intros row [<-|[<-|[<-|[]]]]; reflexivity]|]); (split; [intros row x [<-|[<-|[<-|[]]]] [<-|[<-|[<-|[]]]]; assumption|]); intros row [<-|[<-|[<-|[]]]]; rewrite RS; first [left; ring|right; ring|right; qlra]. }
  apply K. unfold step_block_probs. cbv zeta. repeat match goal with |- In (if ?b then _ else _) _ => destruct b end; cbn; tauto.
Qed.
Lemma prob_groups P g h : square 3 P -> (0 <= g)%Z -> (0 <= h)%Z -> (0 < prob P g h)%num -> is_group g /\ is_group h.
Proof.
  intros [HL HR] Hg Hh HP. unfold prob in HP. assert (Lg : (Z.to_nat g < 3)%nat).
  { destruct (Nat.lt_ge_cases (Z.to_nat g) 3) as [|K]; [assumption|]. rewrite (nth_overflow P) in HP by lia. destruct (Z.to_nat h); discriminate HP. }
  assert (Lh : (Z.to_nat h < 3)%nat).
  { destruct (Nat.lt_ge_cases (Z.to_nat h) 3) as [|K]; [assumption|]. rewrite (nth_overflow (nth _ P [])) in HP; [discriminate HP|]. rewrite HR; [lia|]. apply nth_In. lia. }
  unfold is_group. lia.
Qed.
(** the second example of the module: the simulation raises no exception, and contacts follow the schedule *)
Theorem C196_simulation_partial : forall c d1 d2 m1 p1 exps chs sa sd dt fuel w, c_method c = BlockMod (step_block_probs d1 d2 m1 p1) -> num_groups c = 3 ->
  (0 <= d1)%num -> (0 <= d2)%num -> (0 <= m1)%num -> (m1 <= 1)%num -> (0 <= p1)%num -> (p1 <= 1)%num ->
  create c = Ok fresh -> ids_in_order c -> groups_ok c -> delays_ok c -> scales_ok c -> exponentials exps ->
  simulate c exps chs sa sd dt fuel w <> Raise /\
  forall s, simulate c exps chs sa sd dt fuel w = Ok s -> forall r, In r (s_rec s) ->
    exists g h, group_of c (source r) g /\ group_of c (target r) h /\ forall k, k < 3 -> let from := (qn k * (d1 + d2))%num in
      ((from <= start_time r)%num -> (start_time r < from + d1)%num -> m1 = 1%num -> g = h) /\
      ((from + d1 <= start_time r)%num -> (start_time r < from + d1 + d2)%num ->
         (g = fst (exchanging k) \/ g = snd (exchanging k)) /\ (h = fst (exchanging k) \/ h = snd (exchanging k)) /\ (p1 = 1%num -> g <> h)).
Proof.
  intros c d1 d2 m1 p1 exps chs sa sd dt fuel w HM HN Hd1 Hd2 M0 M1 P0 P1 HC HI HG HD HS HE. assert (HI' : ids_ok c) by (intros ind Hin; destruct (In_nth_error _ _ Hin) as (k & Hk); rewrite (HI k ind Hk); lia). split.
  - apply C94_positive_rows_partial; auto; [|unfold rows_positive; now rewrite HM]. unfold weights_ok. rewrite HM, HN. intros t. now apply probabilities.
  - intros s H r Hr. destruct (C93_in_order_partial c exps chs sa sd dt fuel w s HI HG HD HE ltac:(intros P; rewrite HM; discriminate) H r Hr) as (g & h & Hg & Hh & HP). rewrite HM in HP.
    exists g, h. split; [exact Hg|]. split; [exact Hh|]. destruct (probabilities d1 d2 m1 p1 (start_time r) M0 M1 P0 P1) as (HSq & _).
    assert (G0 : (0 <= g)%Z) by (destruct Hg as (ind & Hin & _ & <-); now apply HG). assert (H0 : (0 <= h)%Z) by (destruct Hh as (ind & Hin & _ & <-); now apply HG).
    destruct (prob_groups _ g h HSq G0 H0 HP) as [IG IH]. intros k Hk from. destruct (C196_schedule_partial d1 d2 m1 p1 k (start_time r) Hd1 Hd2 Hk) as (S1 & S2 & _). split.
    + intros A B E. rewrite (S1 A B g h IG IH) in HP. destruct (Z.eqb_spec g h) as [|_]; [assumption|]. rewrite E in HP. vm_compute in HP. discriminate HP.
    + intros A B. rewrite (S2 A B g h IG IH) in HP. destruct ((((g =? fst (exchanging k)) || (g =? snd (exchanging k))) && ((h =? fst (exchanging k)) || (h =? snd (exchanging k))))%bool%Z) eqn:EB; [|discriminate HP].
      apply Bool.andb_true_iff in EB as [B1 B2]. apply Bool.orb_true_iff in B1, B2. rewrite !Z.eqb_eq in B1, B2. split; [exact B1|]. split; [exact B2|]. intros E Egh. rewrite (proj2 (Z.eqb_eq g h) Egh), E in HP. vm_compute in HP. discriminate HP.
Qed.
(* six individuals; an activation in the first exchanging step *)
Example C196_applies : let c := pop_of [(0, 0); (1, 0); (2, 1); (3, 1); (4, 2); (5, 2)]%Z (qn 4) (BlockMod (step_block_probs (qn 1) (qn 2) (qf 4 5) (qn 1))) in
  num_groups c = 3 /\ create c = Ok fresh /\ ids_in_order c /\ groups_ok c /\ delays_ok c /\ scales_ok c /\ contacts (sample c [qf 3 2; qn 100; qn 100; qn 100; qn 100; qn 100; qn 100; qn 2]) = [((0, 3)%Z, qf 3 2, qf 7 2)].
Proof.
  cbv zeta. split; [reflexivity|]. split; [reflexivity|]. split; [|split; [plain_ids|split; [apply plain_delays|split; [apply plain_scales|vm_compute; reflexivity]]]].
  intros k ind Hk. destruct k as [|[|[|[|[|[|k]]]]]]; cbn in Hk; try (injection Hk as <-; reflexivity). destruct k; discriminate.
Qed.

Print Assumptions C196_lengths_refuted.
Print Assumptions C196_schedule_partial.
Print Assumptions C196_simulation_partial.
