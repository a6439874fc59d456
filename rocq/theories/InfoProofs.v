(** Lemmas for the information measures. *)
From Verif Require Import Base PartitionModel InfoModel InfoSpec.
From Coq Require Import Lra.
Local Open Scope R_scope.

(** * Sums of reals *)
Definition sumR {A} (f : A -> R) (l : list A) : R := fold_right (fun a s => f a + s) 0 l.
Section SumR.
Context {A : Type}.
Implicit Types (f g : A -> R) (l : list A).
Lemma sumR_cons f a l : sumR f (a :: l) = f a + sumR f l.
Proof. reflexivity. Qed.
Lemma sumR_app f l l' : sumR f (l ++ l') = sumR f l + sumR f l'.
Proof. induction l; simpl; [lra|]. unfold sumR in *. rewrite IHl. lra. Qed.
Lemma sumR_ext f g l : (forall a, In a l -> f a = g a) -> sumR f l = sumR g l.
Proof.
  induction l as [|a l IH]; intros H; [reflexivity|]. rewrite !sumR_cons, (H a) by now left.
  rewrite IH; [reflexivity|]. intros; apply H; now right.
Qed.
Lemma sumR_add f g l : sumR (fun a => f a + g a) l = sumR f l + sumR g l.
Proof. induction l as [|a l IH]; [simpl; lra|]. rewrite !sumR_cons, IH. lra. Qed.
Lemma sumR_sub f g l : sumR (fun a => f a - g a) l = sumR f l - sumR g l.
Proof. induction l as [|a l IH]; [simpl; lra|]. rewrite !sumR_cons, IH. lra. Qed.
Lemma sumR_scal c f l : sumR (fun a => c * f a) l = c * sumR f l.
Proof. induction l as [|a l IH]; [simpl; lra|]. rewrite !sumR_cons, IH. lra. Qed.
Lemma sumR_scal_r c f l : sumR (fun a => f a * c) l = sumR f l * c.
Proof. induction l as [|a l IH]; [simpl; lra|]. rewrite !sumR_cons, IH. lra. Qed.
Lemma sumR_le f g l : (forall a, In a l -> f a <= g a) -> sumR f l <= sumR g l.
Proof.
  induction l as [|a l IH]; intros H; [simpl; lra|]. rewrite !sumR_cons.
  apply Rplus_le_compat; [apply H; now left|apply IH; intros; apply H; now right].
Qed.
Lemma sumR_nonneg f l : (forall a, In a l -> 0 <= f a) -> 0 <= sumR f l.
Proof.
  induction l as [|a l IH]; intros H; [simpl; lra|]. rewrite sumR_cons.
  specialize (H a (or_introl eq_refl)) as Ha. assert (0 <= sumR f l) by (apply IH; intros; apply H; now right). lra.
Qed.
Lemma sumR_zero_iff f l : (forall a, In a l -> 0 <= f a) -> (sumR f l = 0 <-> forall a, In a l -> f a = 0).
Proof.
  induction l as [|a l IH]; intros H; [split; [intros _ ? []|reflexivity]|]. rewrite sumR_cons.
  assert (Ha : 0 <= f a) by (apply H; now left).
  assert (Hl : forall b, In b l -> 0 <= f b) by (intros; apply H; now right).
  pose proof (sumR_nonneg f l Hl) as Hs. specialize (IH Hl). split.
  - intros E. assert (f a = 0) by lra. assert (sumR f l = 0) by lra. intros b [<-|Hb]; [assumption|]. now apply IH.
  - intros E. rewrite (E a) by now left. assert (sumR f l = 0) by (apply IH; intros; apply E; now right). lra.
Qed.
Lemma sumR_const c l : sumR (fun _ => c) l = INR (length l) * c.
Proof. induction l as [|a l IH]; [simpl; lra|]. rewrite sumR_cons, IH. cbn [length]. rewrite S_INR. lra. Qed.
Lemma sumR_0 l : sumR (fun _ => 0) l = 0.
Proof. rewrite sumR_const. lra. Qed.
Lemma sumR_perm f l l' : Permutation l l' -> sumR f l = sumR f l'.
Proof. induction 1; rewrite ?sumR_cons in *; try reflexivity; try lra; congruence. Qed.
Lemma sumR_fold (f : R -> A -> R) (g : A -> R) : (forall s a, f s a = s + g a) ->
  forall l s, fold_left f l s = s + sumR g l.
Proof.
  intros H. induction l as [|a l IH]; intros s; simpl; [lra|]. rewrite IH, H. fold (sumR g l). lra.
Qed.
Lemma sumR_fold_in (f : R -> A -> R) (g : A -> R) l : (forall s a, In a l -> f s a = s + g a) ->
  forall s, fold_left f l s = s + sumR g l.
Proof.
  induction l as [|a l IH]; intros H s; [simpl; lra|]. cbn [fold_left]. rewrite sumR_cons, IH, H by (try (now left); intros; apply H; now right).
  lra.
Qed.
End SumR.
Lemma sumR_swap {A B} (f : A -> B -> R) l m : sumR (fun a => sumR (f a) m) l = sumR (fun b => sumR (fun a => f a b) l) m.
Proof.
  induction l as [|a l IH]; [simpl; now rewrite sumR_0|]. rewrite sumR_cons, IH, <- sumR_add. apply sumR_ext. reflexivity.
Qed.
Lemma sumR_concat {A} (f : A -> R) ll : sumR f (concat ll) = sumR (sumR f) ll.
Proof. induction ll as [|l ll IH]; [reflexivity|]. cbn [concat]. now rewrite sumR_app, sumR_cons, IH. Qed.
Lemma sumR_map {A B} (g : A -> B) (f : B -> R) l : sumR f (map g l) = sumR (fun a => f (g a)) l.
Proof. induction l as [|a l IH]; [reflexivity|]. cbn [map]. now rewrite !sumR_cons, IH. Qed.
Lemma sumR_flat_map {A B} (g : A -> list B) (f : B -> R) l : sumR f (flat_map g l) = sumR (fun a => sumR f (g a)) l.
Proof. induction l as [|a l IH]; [reflexivity|]. cbn [flat_map]. now rewrite sumR_app, sumR_cons, IH. Qed.

(** * Logarithms *)
Lemma ln_le_sub t : 0 < t -> ln t <= t - 1.
Proof. intros H. pose proof (exp_ineq1_le (ln t)) as E. rewrite exp_ln in E by assumption. lra. Qed.
Lemma ln2_pos : 0 < ln 2.
Proof. rewrite <- ln_1. apply ln_increasing; lra. Qed.
Lemma ln_nonneg t : 1 <= t -> 0 <= ln t.
Proof. intros [H|<-]; [|rewrite ln_1; lra]. rewrite <- ln_1. apply Rlt_le, ln_increasing; lra. Qed.
Lemma ln_div a b : 0 < a -> 0 < b -> ln (a / b) = ln a - ln b.
Proof. intros Ha Hb. unfold Rdiv. rewrite ln_mult, ln_Rinv by (try assumption; now apply Rinv_0_lt_compat). lra. Qed.
Lemma ln_eq0 t : 1 <= t -> ln t = 0 -> t = 1.
Proof.
  intros [H|<-] E; [|reflexivity]. exfalso. pose proof (ln_increasing 1 t ltac:(lra) H) as L. rewrite ln_1 in L. lra.
Qed.
Lemma ln_le_mono a b : 0 < a -> a <= b -> ln a <= ln b.
Proof. intros Ha [H|<-]; [|lra]. apply Rlt_le, ln_increasing; assumption. Qed.
Lemma div_ge1 a b : 0 < b -> b <= a -> 1 <= a / b.
Proof. intros Hb H. apply Rmult_le_reg_r with b; [assumption|]. unfold Rdiv. rewrite Rmult_assoc, Rinv_l by lra. lra. Qed.

(** * Conditional entropies of equivalence relations on a finite list of nodes *)
Definition ind (b : bool) : R := if b then 1 else 0.
Lemma ind_andb a b : ind (a && b) = ind a * ind b.
Proof. destruct a, b; simpl; lra. Qed.
Lemma ind_nonneg b : 0 <= ind b.
Proof. destruct b; simpl; lra. Qed.
Lemma count_ind {A} (p : A -> bool) l : INR (length (filter p l)) = sumR (fun y => ind (p y)) l.
Proof.
  induction l as [|a l IH]; [reflexivity|]. rewrite sumR_cons. cbn [filter]. destruct (p a); cbn [length ind]; rewrite ?S_INR, IH; lra.
Qed.

Section Core.
Variable V : list nat.
Definition cnt (r : nat -> nat -> bool) (x : nat) : R := INR (length (filter (r x) V)).
Definition meet (r s : nat -> nat -> bool) (x y : nat) : bool := r x y && s x y.
Definition equiv_on (r : nat -> nat -> bool) : Prop :=
  (forall x, In x V -> r x x = true) /\
  (forall x y, In x V -> In y V -> r x y = r y x) /\
  (forall x y z, In x V -> In y V -> In z V -> r x y = true -> r y z = true -> r x z = true).
Definition top (x y : nat) : bool := true.
Lemma top_equiv : equiv_on top.
Proof. unfold top. repeat split. Qed.
Lemma meet_equiv r s : equiv_on r -> equiv_on s -> equiv_on (meet r s).
Proof.
  intros (R1 & R2 & R3) (S1 & S2 & S3). unfold meet. split; [|split].
  - intros x Hx. now rewrite R1, S1.
  - intros x y Hx Hy. now rewrite R2, S2.
  - intros x y z Hx Hy Hz H1 H2. apply andb_prop in H1, H2. rewrite (R3 x y z), (S3 x y z) by tauto. reflexivity.
Qed.
Lemma equiv_class r x y z : equiv_on r -> In x V -> In y V -> In z V -> r x y = true -> r x z = r y z.
Proof.
  intros (R1 & R2 & R3) Hx Hy Hz H. destruct (r y z) eqn:E.
  - now apply (R3 x y z).
  - destruct (r x z) eqn:F; [|reflexivity]. rewrite <- E. symmetry. apply (R3 y x z); try assumption. now rewrite R2.
Qed.
Lemma filter_length_le {A} (p q : A -> bool) l : (forall a, In a l -> p a = true -> q a = true) ->
  (length (filter p l) <= length (filter q l))%nat.
Proof.
  induction l as [|a l IH]; intros H; [apply le_n|]. cbn [filter].
  assert (IH' := IH (fun b Hb => H b (or_intror Hb))). specialize (H a (or_introl eq_refl)).
  destruct (p a); [rewrite H by reflexivity|destruct (q a)]; cbn [length]; lia.
Qed.
Lemma cnt_ext r s x : (forall y, In y V -> r x y = s x y) -> cnt r x = cnt s x.
Proof. intros H. unfold cnt. do 2 f_equal. now apply filter_ext_in. Qed.
Lemma cnt_pos r x : equiv_on r -> In x V -> 0 < cnt r x.
Proof.
  intros (R1 & _) Hx. unfold cnt. apply lt_0_INR.
  assert (H : In x (filter (r x) V)) by (apply filter_In; auto). destruct (filter (r x) V); [destruct H|simpl; lia].
Qed.
Lemma cnt_ge1 r x : equiv_on r -> In x V -> 1 <= cnt r x.
Proof.
  intros (R1 & _) Hx. unfold cnt. change 1 with (INR 1). apply le_INR.
  assert (H : In x (filter (r x) V)) by (apply filter_In; auto). destruct (filter (r x) V); [destruct H|simpl; lia].
Qed.
Lemma cnt_le r s x : (forall y, In y V -> r x y = true -> s x y = true) -> cnt r x <= cnt s x.
Proof. intros H. apply le_INR. now apply filter_length_le. Qed.
Lemma cnt_meet_l r s x : cnt (meet r s) x <= cnt r x.
Proof. apply cnt_le. intros y _ H. now apply andb_prop in H. Qed.
Lemma cnt_meet_r r s x : cnt (meet r s) x <= cnt s x.
Proof. apply cnt_le. intros y _ H. now apply andb_prop in H. Qed.
Lemma cnt_class r x y : equiv_on r -> In x V -> In y V -> r x y = true -> cnt r x = cnt r y.
Proof. intros Hr Hx Hy H. unfold cnt. do 2 f_equal. apply filter_ext_in. intros z Hz. now apply equiv_class. Qed.
Lemma cnt_top x : cnt top x = INR (length V).
Proof. unfold cnt, top. do 2 f_equal. induction V; simpl; congruence. Qed.

(** N ln 2 times the entropy of [r] given [s] *)
Definition Hc (r s : nat -> nat -> bool) : R := sumR (fun x => ln (cnt s x / cnt (meet r s) x)) V.

Lemma Hc_term_nonneg r s x : equiv_on r -> equiv_on s -> In x V -> 0 <= ln (cnt s x / cnt (meet r s) x).
Proof.
  intros Hr Hs Hx. apply ln_nonneg, div_ge1; [apply cnt_pos; [now apply meet_equiv|assumption]|apply cnt_meet_r].
Qed.
Lemma Hc_nonneg r s : equiv_on r -> equiv_on s -> 0 <= Hc r s.
Proof. intros Hr Hs. apply sumR_nonneg. intros. now apply Hc_term_nonneg. Qed.

Lemma filter_count_eq {A} (p q : A -> bool) l : (forall a, In a l -> p a = true -> q a = true) ->
  length (filter p l) = length (filter q l) -> forall a, In a l -> q a = true -> p a = true.
Proof.
  induction l as [|b l IH]; intros H E a Ha Hq; [destruct Ha|].
  assert (Hl : forall c, In c l -> p c = true -> q c = true) by (intros; apply H; auto; now right).
  pose proof (filter_length_le p q l Hl) as L. cbn [filter] in E.
  destruct (p b) eqn:Pb.
  - rewrite (H b (or_introl eq_refl) Pb) in E. cbn [length] in E. destruct Ha as [<-|Ha]; [assumption|].
    apply IH; auto.
  - destruct (q b) eqn:Qb; cbn [length] in E; [lia|]. destruct Ha as [<-|Ha]; [congruence|]. apply IH; auto.
Qed.
Lemma Hc_zero r s : equiv_on r -> equiv_on s ->
  (Hc r s = 0 <-> forall x y, In x V -> In y V -> s x y = true -> r x y = true).
Proof.
  intros Hr Hs. unfold Hc. rewrite sumR_zero_iff by (intros; now apply Hc_term_nonneg).
  pose proof (meet_equiv r s Hr Hs) as Hm. split.
  - intros H x y Hx Hy Hxy. specialize (H x Hx).
    apply ln_eq0 in H; [|apply div_ge1; [now apply cnt_pos|apply cnt_meet_r]].
    assert (E : cnt (meet r s) x = cnt s x).
    { pose proof (cnt_pos _ x Hm Hx). apply Rmult_eq_reg_r with (/ cnt (meet r s) x); [|apply Rinv_neq_0_compat; lra].
      rewrite Rinv_r by lra. unfold Rdiv in H. now symmetry. }
    apply INR_eq in E.
    pose proof (filter_count_eq (meet r s x) (s x) V) as F.
    assert (meet r s x y = true).
    { apply F; try assumption. intros a _ Ha. now apply andb_prop in Ha. }
    now apply andb_prop in H0.
  - intros H x Hx. rewrite (cnt_ext (meet r s) s).
    + unfold Rdiv. rewrite Rinv_r; [apply ln_1|]. pose proof (cnt_pos _ x Hs Hx). lra.
    + intros y Hy. unfold meet. destruct (s x y) eqn:E; [now rewrite H|now rewrite andb_false_r].
Qed.

(** the sum that appears after ln t <= t - 1 *)
Lemma triangle_count a b c : equiv_on a -> equiv_on b -> equiv_on c ->
  sumR (fun x => cnt (meet a b) x * cnt (meet b c) x / (cnt (meet a c) x * cnt b x)) V <= INR (length V).
Proof.
  intros Ha Hb Hc'.
  pose proof (meet_equiv a c Ha Hc') as Hac.
  apply Rle_trans with (sumR (fun y => sumR (fun z => ind (b y z) / cnt b y) V) V).
  - rewrite (sumR_ext _ (fun x => sumR (fun y => sumR (fun z =>
        ind (meet a b x y) * ind (meet b c x z) / (cnt (meet a c) x * cnt b x)) V) V)).
    2:{ intros x Hx. unfold cnt at 1 2. rewrite !count_ind. unfold Rdiv. rewrite Rmult_assoc, <- sumR_scal_r.
        apply sumR_ext. intros y Hy. rewrite (Rmult_comm (sumR _ V)), <- Rmult_assoc, <- sumR_scal. apply sumR_ext. intros z Hz. lra. }
    rewrite sumR_swap. apply sumR_le. intros y Hy. rewrite sumR_swap. apply sumR_le. intros z Hz.
    set (m := INR (length (filter (fun w => a y w && c z w) V))).
    rewrite (sumR_ext _ (fun x => ind (b y z) * (ind (meet a b x y) * ind (c x z)) / (m * cnt b y))).
    2:{ intros x Hx. unfold meet. destruct (a x y) eqn:Axy; [|cbn [ind andb]; unfold Rdiv; ring].
        destruct (b x y) eqn:Bxy; [|cbn [ind andb]; unfold Rdiv; ring]. rewrite (equiv_class b x y z) by assumption.
        destruct (b y z) eqn:Byz; [|cbn [ind andb]; unfold Rdiv; ring]. destruct (c x z) eqn:Cxz; [|cbn [ind andb]; unfold Rdiv; ring].
        cbn [ind andb]. rewrite (cnt_class b x y) by assumption.
        replace (cnt (fun x0 y0 => a x0 y0 && c x0 y0) x) with m; [unfold Rdiv; lra|].
        unfold m, cnt. do 2 f_equal. apply filter_ext_in. intros w Hw.
        now rewrite (equiv_class a x y w), (equiv_class c x z w). }
    pose proof (cnt_pos b y Hb Hy) as By.
    destruct (b y z) eqn:Byz.
    2:{ rewrite (sumR_ext _ (fun _ => 0)); [rewrite sumR_0; cbn; unfold Rdiv; lra|]. intros; cbn; unfold Rdiv; lra. }
    cbn [ind].
    rewrite (sumR_ext _ (fun x => ind (meet a b x y && c x z) * / (m * cnt b y))) by (intros; rewrite ind_andb; unfold Rdiv; lra).
    rewrite sumR_scal_r, <- count_ind.
    assert (Hle : INR (length (filter (fun x => meet a b x y && c x z) V)) <= m).
    { apply le_INR, filter_length_le. intros x Hx H. apply andb_prop in H. destruct H as [H1 H2]. apply andb_prop in H1.
      destruct Ha as (_ & A2 & _), Hc' as (_ & C2 & _). rewrite A2, C2 by assumption. now rewrite (proj1 H1), H2. }
    assert (Hm : 0 <= m) by apply pos_INR.
    destruct (Req_dec m 0) as [E|E].
    + rewrite E in Hle. pose proof (pos_INR (length (filter (fun x => meet a b x y && c x z) V))).
      replace (INR (length (filter (fun x => meet a b x y && c x z) V))) with 0 by lra.
      rewrite Rmult_0_l. unfold Rdiv. rewrite Rmult_1_l. apply Rlt_le, Rinv_0_lt_compat. assumption.
    + rewrite Rinv_mult_distr by lra.
      apply Rle_trans with (m * (/ m * / cnt b y)).
      * apply Rmult_le_compat_r; [|assumption]. apply Rlt_le, Rmult_lt_0_compat; apply Rinv_0_lt_compat; lra.
      * rewrite <- Rmult_assoc, Rinv_r by lra. unfold Rdiv. lra.
  - rewrite (sumR_ext _ (fun _ => 1)).
    + rewrite sumR_const. lra.
    + intros y Hy. unfold Rdiv. rewrite sumR_scal_r, <- count_ind. apply Rinv_r.
      pose proof (cnt_pos b y Hb Hy) as H. apply Rgt_not_eq. exact H.
Qed.
Lemma Hc_triangle a b c : equiv_on a -> equiv_on b -> equiv_on c -> Hc a c <= Hc a b + Hc b c.
Proof.
  intros Ha Hb Hc'. unfold Hc.
  pose proof (meet_equiv a c Ha Hc') as Hac. pose proof (meet_equiv a b Ha Hb) as Hab. pose proof (meet_equiv b c Hb Hc') as Hbc.
  enough (sumR (fun x => ln (cnt (meet a b) x * cnt (meet b c) x / (cnt (meet a c) x * cnt b x))) V <= 0) as H.
  { rewrite (sumR_ext _ (fun x => ln (cnt c x / cnt (meet a c) x) - ln (cnt b x / cnt (meet a b) x) - ln (cnt c x / cnt (meet b c) x))) in H.
    - rewrite !sumR_sub in H. lra.
    - intros x Hx.
      pose proof (cnt_pos _ x Hac Hx). pose proof (cnt_pos _ x Hab Hx). pose proof (cnt_pos _ x Hbc Hx).
      pose proof (cnt_pos _ x Hb Hx). pose proof (cnt_pos _ x Hc' Hx).
      rewrite !ln_div, !ln_mult by (try assumption; now apply Rmult_lt_0_compat). lra. }
  apply Rle_trans with (sumR (fun x => cnt (meet a b) x * cnt (meet b c) x / (cnt (meet a c) x * cnt b x) - 1) V).
  - apply sumR_le. intros x Hx. apply ln_le_sub.
    apply Rdiv_lt_0_compat; apply Rmult_lt_0_compat; now apply cnt_pos.
  - rewrite sumR_sub, sumR_const. pose proof (triangle_count a b c Ha Hb Hc'). lra.
Qed.
Lemma Hc_top_r r : equiv_on r -> Hc top r = 0.
Proof.
  intros Hr. unfold Hc. rewrite (sumR_ext _ (fun _ => 0)); [apply sumR_0|]. intros x Hx.
  change (meet top r) with r. pose proof (cnt_pos _ x Hr Hx).
  unfold Rdiv. rewrite Rinv_r by lra. apply ln_1.
Qed.
Lemma Hc_le_top a c : equiv_on a -> equiv_on c -> Hc a c <= Hc a top.
Proof. intros Ha Hc'. pose proof (Hc_triangle a top c Ha top_equiv Hc') as H. rewrite Hc_top_r in H by assumption. lra. Qed.
Lemma meet_sym r s x : cnt (meet r s) x = cnt (meet s r) x.
Proof. apply cnt_ext. intros. unfold meet. apply andb_comm. Qed.
(** chain rule *)
Lemma chain r s : equiv_on r -> equiv_on s ->
  Hc r top + Hc s r = sumR (fun x => ln (INR (length V) / cnt (meet r s) x)) V.
Proof.
  intros Hr Hs. unfold Hc. rewrite <- sumR_add. apply sumR_ext. intros x Hx.
  rewrite (meet_sym s r). pose proof (meet_equiv r s Hr Hs) as Hm.
  replace (cnt (meet r top) x) with (cnt r x) by (apply cnt_ext; intros; unfold meet, top; now rewrite andb_true_r).
  rewrite cnt_top. assert (0 < INR (length V)) by (apply lt_0_INR; destruct V; [destruct Hx|simpl; lia]).
  pose proof (cnt_pos _ x Hr Hx). pose proof (cnt_pos _ x Hm Hx). rewrite !ln_div by assumption. lra.
Qed.
Lemma Hc_upper r s : equiv_on r -> equiv_on s -> Hc r s + Hc s r <= INR (length V) * ln (INR (length V)).
Proof.
  intros Hr Hs. pose proof (Hc_le_top r s Hr Hs) as H1. pose proof (chain r s Hr Hs) as H2.
  assert (H3 : sumR (fun x => ln (INR (length V) / cnt (meet r s) x)) V <= sumR (fun _ => ln (INR (length V))) V).
  { apply sumR_le. intros x Hx. pose proof (meet_equiv r s Hr Hs) as Hm. pose proof (cnt_ge1 _ x Hm Hx).
    assert (HN : 0 < INR (length V)) by (apply lt_0_INR; destruct V; [destruct Hx|simpl; lia]).
    rewrite ln_div by lra. pose proof (ln_nonneg _ H). lra. }
  rewrite sumR_const in H3. lra.
Qed.
End Core.

(** * From lists of clusters to equivalence relations *)
(** the cluster of a node *)
Definition clu (P : list (list nat)) (x : nat) : list nat :=
  match find (memb x) P with Some c => c | None => [] end.
Definition rel (P : list (list nat)) (x y : nat) : bool := memb y (clu P x).

Lemma NoDup_concat_cons c (P : list (list nat)) : NoDup (concat (c :: P)) ->
  NoDup c /\ NoDup (concat P) /\ forall x, In x c -> ~ In x (concat P).
Proof.
  cbn [concat]. intros H. split; [|split].
  - induction c as [|a c IH]; [constructor|]. cbn [app] in H. apply NoDup_cons_iff in H. destruct H as [Ha H].
    constructor; [intros Hn; apply Ha, in_or_app; now left|now apply IH].
  - induction c as [|a c IH]; [assumption|]. cbn [app] in H. apply NoDup_cons_iff in H. now apply IH.
  - induction c as [|a c IH]; [intros ? []|]. cbn [app] in H. apply NoDup_cons_iff in H. destruct H as [Ha H].
    intros x [<-|Hx]; [intros Hn; apply Ha, in_or_app; now right|]. now apply IH.
Qed.
Lemma in_two (P : list (list nat)) x c d : NoDup (concat P) -> In c P -> In d P -> In x c -> In x d -> c = d.
Proof.
  induction P as [|e P IH]; intros Hn Hc Hd Hxc Hxd; [destruct Hc|].
  apply NoDup_concat_cons in Hn. destruct Hn as (_ & Hn & Hdis).
  destruct Hc as [->|Hc], Hd as [->|Hd]; try reflexivity.
  - exfalso. apply (Hdis x Hxc). apply in_concat. eauto.
  - exfalso. apply (Hdis x Hxd). apply in_concat. eauto.
  - now apply IH.
Qed.
Lemma clu_spec P x : In x (concat P) -> In (clu P x) P /\ In x (clu P x).
Proof.
  intros H. apply in_concat in H. destruct H as (c & Hc & Hx). unfold clu.
  destruct (find (memb x) P) as [d|] eqn:E.
  - apply find_some in E. rewrite memb_In in E. tauto.
  - exfalso. apply (find_none _ _ E) in Hc. apply memb_In in Hx. congruence.
Qed.
Lemma clu_eq P x c : NoDup (concat P) -> In c P -> In x c -> clu P x = c.
Proof.
  intros Hn Hc Hx. assert (Hin : In x (concat P)) by (apply in_concat; eauto).
  destruct (clu_spec P x Hin) as [H1 H2]. now apply (in_two P x).
Qed.
Section Cover.
Variables (V : list nat) (P : list (list nat)).
Hypothesis HP : covers V P.
Lemma cover_in x : In x V <-> In x (concat P).
Proof. destruct HP as [_ H]. split; apply Permutation_in; [now apply Permutation_sym|exact H]. Qed.
Lemma cover_nodup : NoDup (concat P).
Proof. destruct HP as [H1 H2]. eapply Permutation_NoDup; [|exact H1]. now apply Permutation_sym. Qed.
Lemma clu_in x : In x V -> In (clu P x) P /\ In x (clu P x).
Proof. intros H. now apply clu_spec, cover_in. Qed.
Lemma clu_incl x : In x V -> incl (clu P x) V.
Proof. intros H y Hy. apply cover_in, in_concat. destruct (clu_in x H). eauto. Qed.
Lemma clu_nodup c : In c P -> NoDup c.
Proof.
  pose proof cover_nodup as H. revert H. generalize P. induction P0 as [|d Q IH]; intros H Hc; [destruct Hc|].
  apply NoDup_concat_cons in H. destruct Hc as [->|Hc]; [tauto|]. now apply IH.
Qed.
Lemma rel_equiv : equiv_on V (rel P).
Proof.
  pose proof cover_nodup as Hn. unfold rel. split; [|split].
  - intros x Hx. apply memb_In. now apply clu_in.
  - intros x y Hx Hy. destruct (clu_in x Hx) as [Hcx Hxx], (clu_in y Hy) as [Hcy Hyy].
    destruct (memb y (clu P x)) eqn:E.
    + apply memb_In in E. rewrite (clu_eq P y (clu P x)) by assumption. symmetry. now apply memb_In.
    + destruct (memb x (clu P y)) eqn:F; [|reflexivity]. apply memb_In in F.
      rewrite (clu_eq P x (clu P y)) in E by assumption. apply memb_In in Hyy. congruence.
  - intros x y z Hx Hy Hz H1 H2. apply memb_In in H1. destruct (clu_in x Hx) as [Hcx _].
    now rewrite (clu_eq P y (clu P x)) in H2.
Qed.
Lemma rel_joined x y : In x V -> In y V -> (rel P x y = true <-> joined P x y).
Proof.
  intros Hx Hy. unfold rel. rewrite memb_In. destruct (clu_in x Hx) as [Hcx Hxx]. split.
  - intros H. exists (clu P x). tauto.
  - intros (c & Hc & Hxc & Hyc). now rewrite (clu_eq P x c cover_nodup).
Qed.
Lemma joined_in x y : joined P x y -> In x V /\ In y V.
Proof. intros (c & Hc & Hx & Hy). split; apply cover_in, in_concat; eauto. Qed.
Lemma clu_cnt x : In x V -> INR (length (clu P x)) = cnt V (rel P) x.
Proof.
  intros Hx. unfold cnt. f_equal. apply Permutation_length, NoDup_Permutation.
  - apply clu_nodup. now apply clu_in.
  - apply NoDup_filter. apply HP.
  - intros y. rewrite filter_In. unfold rel. rewrite memb_In. split; [|tauto]. intros H. split; [|exact H]. now apply (clu_incl x).
Qed.
Lemma sum_nodes f : sumR f V = sumR (sumR f) P.
Proof. rewrite <- sumR_concat. apply sumR_perm. apply Permutation_sym, HP. Qed.
(** a node is in exactly one cluster *)
Lemma sum_ind (h : list nat -> R) x : In x V -> sumR (fun c => ind (memb x c) * h c) P = h (clu P x).
Proof.
  intros Hx. apply cover_in in Hx. pose proof cover_nodup as H. unfold clu. revert H Hx. generalize P.
  induction P0 as [|d Q IH]; intros H Hx; [destruct Hx|]. rewrite sumR_cons. cbn [find].
  apply NoDup_concat_cons in H. destruct H as (_ & Hn & Hdis). destruct (memb x d) eqn:E.
  - rewrite (sumR_ext _ (fun _ => 0)); [rewrite sumR_0; cbn; lra|]. intros c Hc.
    destruct (memb x c) eqn:F; [|cbn; lra]. exfalso. apply memb_In in E, F. apply (Hdis x E). apply in_concat. eauto.
  - rewrite IH; [cbn; lra|assumption|]. cbn [concat] in Hx. apply in_app_or in Hx. destruct Hx as [Hx|Hx]; [|assumption].
    apply memb_In in Hx. congruence.
Qed.
End Cover.
Lemma partition_covers V P : partition_of V P -> covers V P.
Proof. intros (H1 & H2 & _). split; assumption. Qed.
Lemma inter_cnt V P Q x : covers V P -> covers V Q -> In x V ->
  INR (inter_len (clu P x) (clu Q x)) = cnt V (meet (rel P) (rel Q)) x.
Proof.
  intros HP HQ Hx. unfold cnt, inter_len. f_equal. apply Permutation_length, NoDup_Permutation.
  - apply NoDup_filter. apply (clu_nodup V P HP). now apply (clu_in V P HP).
  - apply NoDup_filter. apply HP.
  - intros y. rewrite !filter_In. unfold meet, rel. rewrite andb_true_iff, !memb_In. split; [|tauto].
    intros [H1 H2]. repeat split; try assumption. now apply (clu_incl V P HP x).
Qed.
Lemma same_rel V P Q : covers V P -> covers V Q ->
  (same_clustering P Q <-> forall x y, In x V -> In y V -> rel P x y = rel Q x y).
Proof.
  intros HP HQ. split.
  - intros H x y Hx Hy. apply eq_true_iff_eq. rewrite !(rel_joined V) by assumption. apply H.
  - intros H x y. split; intros T.
    + destruct (joined_in V P HP x y T) as [Hx Hy]. apply (rel_joined V) in T; try assumption.
      apply (rel_joined V); try assumption. now rewrite <- H.
    + destruct (joined_in V Q HQ x y T) as [Hx Hy]. apply (rel_joined V) in T; try assumption.
      apply (rel_joined V); try assumption. now rewrite H.
Qed.
