(** Shared library: exact rationals with Leibniz equality, a linear arithmetic
    tactic for them, finite sums over lists, and small list facts.  Nothing in
    this file models code of /repo; it is the vocabulary used by the models. *)

From Coq Require Export List Arith Lia ZArith Bool Permutation Sorted.
From Coq Require Export QArith Qcanon.
From Coq Require Import Lqa.
Export ListNotations.
#[global] Set Warnings "-deprecated".

Open Scope nat_scope.

(** * Rationals *)

Declare Scope num_scope.
Delimit Scope num_scope with num.
Bind Scope num_scope with Qc.

(** All matrix entries, probabilities and gains are exact rationals. *)
Notation num := Qc.
Infix "+" := Qcplus : num_scope.
Infix "*" := Qcmult : num_scope.
Infix "-" := Qcminus : num_scope.
Notation "- x" := (Qcopp x) : num_scope.
Infix "/" := Qcdiv : num_scope.
Infix "<=" := Qcle : num_scope.
Infix "<" := Qclt : num_scope.
Notation "x >= y" := (Qcle y x) (only parsing) : num_scope.
Notation "x > y" := (Qclt y x) (only parsing) : num_scope.
Notation "0" := (Q2Qc 0) : num_scope.
Notation "1" := (Q2Qc 1) : num_scope.
Notation "2" := (Q2Qc 2) : num_scope.

Definition qleb (x y : num) : bool := if Qclt_le_dec y x then false else true.
Definition qltb (x y : num) : bool := if Qclt_le_dec x y then true else false.
Definition qeqb (x y : num) : bool := if Qc_eq_dec x y then true else false.
(** the rational a/b *)
Definition qf (a : Z) (b : positive) : num := Q2Qc (Qmake a b).
Definition qz (a : Z) : num := Q2Qc (inject_Z a).
Definition qn (a : nat) : num := qz (Z.of_nat a).
Definition qabs (x : num) : num := if qltb x 0%num then (- x)%num else x.
Definition qmax (x y : num) : num := if qleb x y then y else x.
Definition b2q (b : bool) : num := if b then 1%num else 0%num.

Lemma this_plus x y : (this (x + y)%num == this x + this y)%Q.
Proof. unfold Qcplus, Q2Qc; cbn [this]. apply Qred_correct. Qed.
Lemma this_mult x y : (this (x * y)%num == this x * this y)%Q.
Proof. unfold Qcmult, Q2Qc; cbn [this]. apply Qred_correct. Qed.
Lemma this_opp x : (this (- x)%num == - this x)%Q.
Proof. unfold Qcopp, Q2Qc; cbn [this]. apply Qred_correct. Qed.
Lemma this_minus x y : (this (x - y)%num == this x - this y)%Q.
Proof. unfold Qcminus. rewrite this_plus, this_opp. reflexivity. Qed.
Lemma this_Q2Qc q : (this (Q2Qc q) == q)%Q.
Proof. unfold Q2Qc; cbn [this]. apply Qred_correct. Qed.

Lemma qc_eq_this x y : x = y <-> (this x == this y)%Q.
Proof. split; [intros ->; reflexivity | apply Qc_is_canon]. Qed.
Lemma qc_le_this x y : (x <= y)%num <-> (this x <= this y)%Q.
Proof. reflexivity. Qed.
Lemma qc_lt_this x y : (x < y)%num <-> (this x < this y)%Q.
Proof. reflexivity. Qed.

(** Linear (in)equalities over rationals, by translation to [Q] and [lra]. *)
Ltac qc_push :=
  repeat match goal with
  | H : context [this (?x + ?y)%num] |- _ => rewrite (this_plus x y) in H
  | H : context [this (?x - ?y)%num] |- _ => rewrite (this_minus x y) in H
  | H : context [this (- ?x)%num] |- _ => rewrite (this_opp x) in H
  | H : context [this (?x * ?y)%num] |- _ => rewrite (this_mult x y) in H
  | H : context [this (Q2Qc ?q)] |- _ => rewrite (this_Q2Qc q) in H
  | |- context [this (?x + ?y)%num] => rewrite (this_plus x y)
  | |- context [this (?x - ?y)%num] => rewrite (this_minus x y)
  | |- context [this (- ?x)%num] => rewrite (this_opp x)
  | |- context [this (?x * ?y)%num] => rewrite (this_mult x y)
  | |- context [this (Q2Qc ?q)] => rewrite (this_Q2Qc q)
  end.
Ltac qc_this :=
  repeat match goal with
  | H : ~ @eq num _ _ |- _ => clear H
  | H : ~ Qcle _ _ |- _ => apply Qcnot_le_lt in H
  | H : ~ Qclt _ _ |- _ => apply Qcnot_lt_le in H
  | H : @eq num ?x ?y |- _ => apply (proj1 (qc_eq_this x y)) in H
  end;
  try match goal with
  | |- @eq num ?x ?y => apply (proj2 (qc_eq_this x y))
  | |- ~ Qcle _ _ => apply Qclt_not_le
  | |- ~ Qclt _ _ => apply Qcle_not_lt
  end;
  unfold Qcle, Qclt in *.
Ltac qlra := intros; qc_this; qc_push; lra.
Ltac qnra := intros; qc_this; qc_push; nra.

(** Closed rational equations and comparisons, by computation. *)
Ltac qcompute :=
  intros;
  match goal with
  | |- @eq num _ _ => apply Qc_is_canon; vm_compute; reflexivity
  | |- Qcle _ _ => unfold Qcle; vm_compute; discriminate
  | |- Qclt _ _ => unfold Qclt; vm_compute; reflexivity
  end.

Lemma qleb_spec x y : reflect (x <= y)%num (qleb x y).
Proof.
  unfold qleb. destruct (Qclt_le_dec y x) as [H|H]; constructor; [|exact H].
  now apply Qclt_not_le.
Qed.
Lemma qltb_spec x y : reflect (x < y)%num (qltb x y).
Proof.
  unfold qltb. destruct (Qclt_le_dec x y) as [H|H]; constructor; [exact H|].
  now apply Qcle_not_lt.
Qed.
Lemma qeqb_spec x y : reflect (x = y) (qeqb x y).
Proof. unfold qeqb. destruct (Qc_eq_dec x y); constructor; assumption. Qed.

Lemma qmult_nonneg a b : (0 <= a -> 0 <= b -> 0 <= a * b)%num.
Proof. qnra. Qed.
Lemma qmult_pos a b : (0 < a -> 0 < b -> 0 < a * b)%num.
Proof. qnra. Qed.
Lemma qsq_nonneg a : (0 <= a * a)%num.
Proof. qnra. Qed.
Lemma qinv_pos a : (0 < a -> 0 < / a)%num.
Proof.
  intros H. destruct (Qclt_le_dec 0 (/ a)) as [|Hle]; [assumption|].
  assert (Hm : (a * / a = 1)%num) by (apply Qcmult_inv_r; intros ->; revert Hle; now intros; apply (Qclt_not_le _ _ H), Qcle_refl).
  exfalso. assert (Hc : (a * / a <= 0)%num) by (revert H Hle; generalize (/ a)%Qc; qnra).
  rewrite Hm in Hc. revert Hc. apply Qclt_not_le. reflexivity.
Qed.
Lemma qdiv_nonneg a b : (0 <= a -> 0 < b -> 0 <= a / b)%num.
Proof.
  intros Ha Hb. unfold Qcdiv. apply qmult_nonneg; [assumption|].
  apply Qclt_le_weak. now apply qinv_pos.
Qed.
Lemma qlt_neq a b : (a < b)%num -> a <> b.
Proof. intros H ->. revert H. apply Qcle_not_lt, Qcle_refl. Qed.
Lemma qneq_pos a : (0 < a)%num -> a <> 0%num.
Proof. intros H ->. revert H. apply Qcle_not_lt, Qcle_refl. Qed.
Lemma qle_lt_or_eq a b : (a <= b)%num -> (a < b)%num \/ a = b.
Proof. apply Qcle_lt_or_eq. Qed.
Lemma qle_antisym a b : (a <= b -> b <= a)%num -> (a <= b)%num -> a = b.
Proof. intros H1 H2. apply Qcle_antisym; auto. Qed.

Lemma this_qn n : (this (qn n) == inject_Z (Z.of_nat n))%Q.
Proof. unfold qn, qz. apply this_Q2Qc. Qed.
Lemma qn_plus a b : qn (a + b) = (qn a + qn b)%num.
Proof.
  apply qc_eq_this. rewrite this_plus, !this_qn, Nat2Z.inj_add, inject_Z_plus. reflexivity.
Qed.
Lemma qn_S a : qn (S a) = (qn a + 1)%num.
Proof. rewrite <- Nat.add_1_r. apply qn_plus. Qed.
Lemma qn_0 : qn 0 = 0%num.
Proof. reflexivity. Qed.
Lemma qn_mult a b : qn (a * b) = (qn a * qn b)%num.
Proof.
  apply qc_eq_this. rewrite this_mult, !this_qn, Nat2Z.inj_mul, inject_Z_mult. reflexivity.
Qed.
Lemma qn_le a b : a <= b -> (qn a <= qn b)%num.
Proof.
  intros H. apply qc_le_this. rewrite !this_qn. rewrite <- Zle_Qle. lia.
Qed.
Lemma qn_lt a b : a < b -> (qn a < qn b)%num.
Proof.
  intros H. apply qc_lt_this. rewrite !this_qn. rewrite <- Zlt_Qlt. lia.
Qed.
Lemma qn_nonneg a : (0 <= qn a)%num.
Proof. rewrite <- qn_0. apply qn_le. lia. Qed.
Lemma qn_inj a b : qn a = qn b -> a = b.
Proof.
  intros H. destruct (lt_eq_lt_dec a b) as [[Hl|He]|Hl]; [|exact He|];
    exfalso; apply qn_lt in Hl; rewrite H in Hl; revert Hl; apply Qcle_not_lt, Qcle_refl.
Qed.

(** * Finite sums *)

Section Sums.
Context {A : Type}.

Definition sumL (f : A -> num) (l : list A) : num :=
  fold_right (fun a s => (f a + s)%num) 0%num l.

Lemma sumL_nil f : sumL f [] = 0%num.
Proof. reflexivity. Qed.
Lemma sumL_cons f a l : sumL f (a :: l) = (f a + sumL f l)%num.
Proof. reflexivity. Qed.
Lemma sumL_app f l1 l2 : sumL f (l1 ++ l2) = (sumL f l1 + sumL f l2)%num.
Proof.
  induction l1 as [|a l IH]; simpl; [ring|]. rewrite IH. ring.
Qed.
Lemma sumL_ext f g l : (forall a, In a l -> f a = g a) -> sumL f l = sumL g l.
Proof.
  induction l as [|a l IH]; intros H; simpl; [reflexivity|].
  rewrite H by (left; reflexivity). rewrite IH; [reflexivity|].
  intros b Hb. apply H. right. exact Hb.
Qed.
Lemma sumL_add f g l : sumL (fun a => (f a + g a)%num) l = (sumL f l + sumL g l)%num.
Proof. induction l as [|a l IH]; simpl; [ring|]. rewrite IH. ring. Qed.
Lemma sumL_sub f g l : sumL (fun a => (f a - g a)%num) l = (sumL f l - sumL g l)%num.
Proof. induction l as [|a l IH]; simpl; [ring|]. rewrite IH. ring. Qed.
Lemma sumL_opp f l : sumL (fun a => (- f a)%num) l = (- sumL f l)%num.
Proof. induction l as [|a l IH]; simpl; [ring|]. rewrite IH. ring. Qed.
Lemma sumL_scal_l c f l : sumL (fun a => (c * f a)%num) l = (c * sumL f l)%num.
Proof. induction l as [|a l IH]; simpl; [ring|]. rewrite IH. ring. Qed.
Lemma sumL_scal_r c f l : sumL (fun a => (f a * c)%num) l = (sumL f l * c)%num.
Proof. induction l as [|a l IH]; simpl; [ring|]. rewrite IH. ring. Qed.
Lemma sumL_zero f l : (forall a, In a l -> f a = 0%num) -> sumL f l = 0%num.
Proof.
  intros H. rewrite (sumL_ext f (fun _ => 0%num) l H).
  induction l as [|a l IH]; simpl; [reflexivity|].
  rewrite IH; [ring|]. intros b Hb. apply H. right. exact Hb.
Qed.
Lemma sumL_perm f l1 l2 : Permutation l1 l2 -> sumL f l1 = sumL f l2.
Proof.
  induction 1 as [|x l1 l2 _ IH|x y l|l1 l2 l3 _ IH1 _ IH2]; simpl;
    [reflexivity|rewrite IH; reflexivity|ring|congruence].
Qed.
Lemma sumL_filter (p : A -> bool) f l :
  sumL f (filter p l) = sumL (fun a => if p a then f a else 0%num) l.
Proof.
  induction l as [|a l IH]; simpl; [reflexivity|].
  destruct (p a); simpl; rewrite IH; ring.
Qed.
Lemma sumL_nonneg f l : (forall a, In a l -> (0 <= f a)%num) -> (0 <= sumL f l)%num.
Proof.
  induction l as [|a l IH]; intros H; simpl; [apply Qcle_refl|].
  assert (H1 : (0 <= f a)%num) by (apply H; left; reflexivity).
  assert (H2 : (0 <= sumL f l)%num) by (apply IH; intros b Hb; apply H; right; exact Hb).
  revert H1 H2. generalize (f a) (sumL f l). qlra.
Qed.
Lemma sumL_le f g l : (forall a, In a l -> (f a <= g a)%num) -> (sumL f l <= sumL g l)%num.
Proof.
  induction l as [|a l IH]; intros H; simpl; [apply Qcle_refl|].
  assert (H1 : (f a <= g a)%num) by (apply H; left; reflexivity).
  assert (H2 : (sumL f l <= sumL g l)%num) by (apply IH; intros b Hb; apply H; right; exact Hb).
  revert H1 H2. generalize (f a) (g a) (sumL f l) (sumL g l). qlra.
Qed.
Lemma sumL_nonneg_term f l a :
  (forall b, In b l -> (0 <= f b)%num) -> In a l -> (f a <= sumL f l)%num.
Proof.
  induction l as [|b l IH]; intros H Hin; [destruct Hin|]; simpl.
  assert (Hl : (0 <= sumL f l)%num) by (apply sumL_nonneg; intros c Hc; apply H; right; exact Hc).
  destruct Hin as [->|Hin].
  - revert Hl. generalize (f a) (sumL f l). qlra.
  - assert (H1 : (0 <= f b)%num) by (apply H; left; reflexivity).
    assert (H2 : (f a <= sumL f l)%num) by (apply IH; [intros c Hc; apply H; right; exact Hc|exact Hin]).
    revert H1 H2. generalize (f a) (f b) (sumL f l). qlra.
Qed.
Lemma sumL_nonneg_zero f l :
  (forall b, In b l -> (0 <= f b)%num) -> sumL f l = 0%num -> forall a, In a l -> f a = 0%num.
Proof.
  intros H H0 a Ha. apply Qcle_antisym; [|apply H; exact Ha].
  rewrite <- H0. apply sumL_nonneg_term; assumption.
Qed.
Lemma sumL_const c l : sumL (fun _ => c) l = (qn (length l) * c)%num.
Proof.
  induction l as [|a l IH]; simpl sumL; cbn [length]; [rewrite qn_0; ring|].
  rewrite IH, qn_S. ring.
Qed.
End Sums.

Lemma sumL_map {A B} (g : A -> B) (f : B -> num) l :
  sumL f (map g l) = sumL (fun a => f (g a)) l.
Proof. induction l as [|a l IH]; simpl; [reflexivity|]. rewrite IH. reflexivity. Qed.
Lemma sumL_concat {A} (f : A -> num) ls :
  sumL f (concat ls) = sumL (fun l => sumL f l) ls.
Proof. induction ls as [|l ls IH]; simpl; [reflexivity|]. rewrite sumL_app, IH. reflexivity. Qed.
Lemma sumL_flat_map {A B} (g : A -> list B) (f : B -> num) l :
  sumL f (flat_map g l) = sumL (fun a => sumL f (g a)) l.
Proof. induction l as [|a l IH]; simpl; [reflexivity|]. rewrite sumL_app, IH. reflexivity. Qed.
Lemma sumL_swap {A B} (f : A -> B -> num) l1 l2 :
  sumL (fun a => sumL (fun b => f a b) l2) l1 = sumL (fun b => sumL (fun a => f a b) l1) l2.
Proof.
  induction l1 as [|a l IH]; simpl.
  - symmetry. apply sumL_zero. reflexivity.
  - rewrite IH, sumL_add. reflexivity.
Qed.
Lemma sumL_prod {A B} (f : A -> num) (g : B -> num) l1 l2 :
  (sumL f l1 * sumL g l2)%num = sumL (fun a => sumL (fun b => (f a * g b)%num) l2) l1.
Proof.
  rewrite <- sumL_scal_r. apply sumL_ext. intros a _. rewrite sumL_scal_l. reflexivity.
Qed.

(** Sums over 0 .. n-1 *)
Definition sumN (n : nat) (f : nat -> num) : num := sumL f (seq 0 n).

Lemma sumN_ext n f g : (forall i, i < n -> f i = g i) -> sumN n f = sumN n g.
Proof. intros H. apply sumL_ext. intros i Hi. apply H. apply in_seq in Hi. lia. Qed.
Lemma sumN_S n f : sumN (S n) f = (sumN n f + f n)%num.
Proof. unfold sumN. rewrite seq_S, sumL_app. simpl. ring. Qed.
Lemma sumN_zero n f : (forall i, i < n -> f i = 0%num) -> sumN n f = 0%num.
Proof. intros H. apply sumL_zero. intros i Hi. apply H. apply in_seq in Hi. lia. Qed.
Lemma sumN_nonneg n f : (forall i, i < n -> (0 <= f i)%num) -> (0 <= sumN n f)%num.
Proof. intros H. apply sumL_nonneg. intros i Hi. apply H. apply in_seq in Hi. lia. Qed.

Lemma sumL_delta (l : list nat) (k : nat) (f : nat -> num) :
  NoDup l -> In k l -> sumL (fun i => if Nat.eqb i k then f i else 0%num) l = f k.
Proof.
  induction l as [|a l IH]; intros Hnd Hin; [destruct Hin|].
  apply NoDup_cons_iff in Hnd. destruct Hnd as [Hna Hnd]. simpl.
  destruct (Nat.eqb_spec a k) as [->|Hne].
  - rewrite sumL_zero; [ring|]. intros i Hi.
    destruct (Nat.eqb_spec i k) as [->|]; [contradiction|reflexivity].
  - destruct Hin as [Heq|Hin]; [contradiction|]. rewrite IH by assumption. ring.
Qed.
Lemma sumL_delta_notin (l : list nat) (k : nat) (f : nat -> num) :
  ~ In k l -> sumL (fun i => if Nat.eqb i k then f i else 0%num) l = 0%num.
Proof.
  intros Hn. apply sumL_zero. intros i Hi.
  destruct (Nat.eqb_spec i k) as [->|]; [contradiction|reflexivity].
Qed.
Lemma sumN_delta n k f : k < n -> sumN n (fun i => if Nat.eqb i k then f i else 0%num) = f k.
Proof. intros H. apply sumL_delta; [apply seq_NoDup|apply in_seq; lia]. Qed.

(** * Lists *)

Definition memb (x : nat) (l : list nat) : bool := existsb (Nat.eqb x) l.
Lemma memb_In x l : memb x l = true <-> In x l.
Proof.
  unfold memb. rewrite existsb_exists. split.
  - intros [y [Hy He]]. apply Nat.eqb_eq in He. now subst.
  - intros H. exists x. split; [exact H|apply Nat.eqb_refl].
Qed.
Lemma memb_spec x l : reflect (In x l) (memb x l).
Proof. apply iff_reflect. symmetry. apply memb_In. Qed.
Lemma memb_false x l : memb x l = false <-> ~ In x l.
Proof. rewrite <- memb_In. destruct (memb x l); split; congruence. Qed.

Definition rem (x : nat) (l : list nat) : list nat := filter (fun y => negb (Nat.eqb y x)) l.
Lemma rem_In x y l : In y (rem x l) <-> In y l /\ y <> x.
Proof.
  unfold rem. rewrite filter_In, negb_true_iff, Nat.eqb_neq. reflexivity.
Qed.
Lemma filter_NoDup {A} (p : A -> bool) l : NoDup l -> NoDup (filter p l).
Proof. apply NoDup_filter. Qed.
Lemma rem_NoDup x l : NoDup l -> NoDup (rem x l).
Proof. apply filter_NoDup. Qed.
Lemma rem_notin x l : ~ In x l -> rem x l = l.
Proof.
  intros H. unfold rem. induction l as [|a l IH]; simpl; [reflexivity|].
  destruct (Nat.eqb_spec a x) as [->|Hne]; [exfalso; apply H; left; reflexivity|].
  simpl. rewrite IH; [reflexivity|]. intros Hi. apply H. right. exact Hi.
Qed.
Lemma sumL_rem f x l : NoDup l -> In x l -> sumL f l = (f x + sumL f (rem x l))%num.
Proof.
  induction l as [|a l IH]; intros Hnd Hin; [destruct Hin|].
  apply NoDup_cons_iff in Hnd. destruct Hnd as [Hna Hnd]. unfold rem. simpl.
  destruct (Nat.eqb_spec a x) as [->|Hne]; simpl.
  - fold (rem x l). rewrite rem_notin by assumption. reflexivity.
  - fold (rem x l). destruct Hin as [He|Hin]; [contradiction|].
    rewrite IH by assumption. ring.
Qed.

(** replace the element at position [i]; out of range: unchanged *)
Fixpoint upd {A} (l : list A) (i : nat) (v : A) : list A :=
  match l, i with
  | [], _ => []
  | _ :: r, 0 => v :: r
  | x :: r, S i' => x :: upd r i' v
  end.
Lemma upd_length {A} (l : list A) i v : length (upd l i v) = length l.
Proof. revert i. induction l as [|a l IH]; intros [|i]; simpl; auto. Qed.
Lemma nth_error_upd_eq {A} (l : list A) i v :
  i < length l -> nth_error (upd l i v) i = Some v.
Proof.
  revert i. induction l as [|a l IH]; intros [|i]; simpl; intros H; try lia; auto.
  apply IH. lia.
Qed.
Lemma nth_error_upd_neq {A} (l : list A) i j v :
  i <> j -> nth_error (upd l i v) j = nth_error l j.
Proof.
  revert i j. induction l as [|a l IH]; intros [|i] [|j] H; simpl; auto; try lia.
Qed.
Lemma nth_upd_eq {A} (l : list A) i v d : i < length l -> nth i (upd l i v) d = v.
Proof. intros H. apply nth_error_nth. now apply nth_error_upd_eq. Qed.
Lemma nth_upd_neq {A} (l : list A) i j v d : i <> j -> nth j (upd l i v) d = nth j l d.
Proof.
  revert i j. induction l as [|a l IH]; intros [|i] [|j] H; simpl; auto; try lia.
Qed.
Lemma upd_oob {A} (l : list A) i v : length l <= i -> upd l i v = l.
Proof.
  revert i. induction l as [|a l IH]; intros [|i] H; simpl in *; auto; try lia.
  f_equal. apply IH. lia.
Qed.

Lemma seq_In_iff n i : In i (seq 0 n) <-> i < n.
Proof. rewrite in_seq. lia. Qed.

Lemma NoDup_perm_set (l1 l2 : list nat) :
  NoDup l1 -> NoDup l2 -> (forall x, In x l1 <-> In x l2) -> Permutation l1 l2.
Proof. intros. now apply NoDup_Permutation. Qed.

Lemma map_nth_seq {A} (l : list A) d : map (fun i => nth i l d) (seq 0 (length l)) = l.
Proof.
  induction l as [|a l IH] using rev_ind; simpl; [reflexivity|].
  rewrite app_length. cbn [length]. rewrite Nat.add_1_r, seq_S, map_app. simpl. f_equal.
  - rewrite <- IH at 2. apply map_ext_in. intros i Hi. apply in_seq in Hi.
    apply app_nth1. lia.
  - rewrite app_nth2 by lia. rewrite Nat.sub_diag. reflexivity.
Qed.
Lemma sumL_nth {A} (l : list A) (f : A -> num) d :
  sumL f l = sumN (length l) (fun i => f (nth i l d)).
Proof.
  rewrite <- (map_nth_seq l d) at 1. rewrite sumL_map. reflexivity.
Qed.

(** a python [set] iterated in some unspecified order *)
Definition is_iteration_order (ord : list nat -> list nat) : Prop :=
  forall l, Permutation (ord l) l.

(** all values of a list of possible values *)
Fixpoint all_some {A} (l : list (option A)) : option (list A) :=
  match l with
  | [] => Some []
  | Some a :: r => match all_some r with Some s => Some (a :: s) | None => None end
  | None :: _ => None
  end.
