(** Properties C156-C160: transition matrices over the real numbers. *)
From Coq Require Import Reals Qreals Lra Lia.
From Coquelicot Require Import Series.
From Verif Require Import Base GapModel GapProofs LouvainModel SparseModel SparseSpec SparseProofs EventsModel EventsSpec EventsProofs LaplacianProofs EventsProps
  TransModel TransSpec MatProofs TransProofs ExpmProofs TransProps ExpModel ExpSpec ExpSeries ExpLimit.
Local Open Scope R_scope.

(** * Rational entries *)
Lemma q2r_0 : q2r 0%num = 0. Proof. unfold q2r. cbn. unfold Q2R. cbn. field. Qed.
Lemma q2r_1 : q2r 1%num = 1. Proof. unfold q2r. cbn. unfold Q2R. cbn. field. Qed.
Lemma q2r_add x y : q2r (x + y)%num = q2r x + q2r y.
Proof. unfold q2r. rewrite <- Q2R_plus. apply Qeq_eqR. apply Qred_correct. Qed.
Lemma q2r_mul x y : q2r (x * y)%num = q2r x * q2r y.
Proof. unfold q2r. rewrite <- Q2R_mult. apply Qeq_eqR. apply Qred_correct. Qed.
Lemma q2r_opp x : q2r (- x)%num = - q2r x.
Proof. unfold q2r. rewrite <- Q2R_opp. apply Qeq_eqR. apply Qred_correct. Qed.
Lemma q2r_sub x y : q2r (x - y)%num = q2r x - q2r y.
Proof. unfold Qcminus. rewrite q2r_add, q2r_opp. reflexivity. Qed.
Lemma q2r_le x y : (x <= y)%num -> q2r x <= q2r y.
Proof. intros H. now apply Qle_Rle. Qed.
Lemma q2r_lt x y : (x < y)%num -> q2r x < q2r y.
Proof. intros H. now apply Qlt_Rlt. Qed.
Lemma q2r_inj x y : q2r x = q2r y -> x = y.
Proof. intros H. apply Qc_is_canon. now apply eqR_Qeq. Qed.
Lemma q2r_div x y : (y <> 0)%num -> q2r (x / y)%num = q2r x / q2r y.
Proof.
  intros Hy. assert (Hr : q2r y <> 0) by (intros E; apply Hy, q2r_inj; now rewrite E, q2r_0).
  apply (Rmult_eq_reg_r (q2r y)); [|exact Hr]. rewrite <- q2r_mul. replace (x / y * y)%num with x by (field; exact Hy). field. exact Hr.
Qed.
Lemma q2r_sumN n f : q2r (sumN n f) = rsum n (fun i => q2r (f i)).
Proof.
  unfold sumN, rsum. induction (seq 0 n) as [|a l IH]; [rewrite sumL_nil; apply q2r_0|]. rewrite sumL_cons, q2r_add, IH. reflexivity.
Qed.
Lemma q2r_qn k : q2r (qn k) = INR k.
Proof. induction k as [|k IH]; [rewrite qn_0; apply q2r_0|]. rewrite qn_S, q2r_add, IH, q2r_1, S_INR. ring. Qed.
Lemma toR_ident i j : toR ident i j = reye i j.
Proof. unfold toR, ident, reye. destruct (Nat.eqb i j); [apply q2r_1|apply q2r_0]. Qed.

(** * The matrices of a step *)
Definition step_of (L : nat -> nat -> num) : rmat := fun i j => reye i j - toR L i j.
Lemma step_prob n L : walk_like n L -> prob_matrix n (step_of L).
Proof.
  intros H. destruct (walk_like_stochastic n L H) as [H0 H1].
  assert (E : forall i j, step_of L i j = q2r (mminus ident L i j)) by (intros i j; unfold step_of, mminus; rewrite q2r_sub, <- toR_ident; reflexivity).
  split.
  - intros i j Hi Hj. rewrite E, <- q2r_0. apply q2r_le. now apply H0.
  - intros i Hi. rewrite (rsum_ext n _ (fun j => q2r (mminus ident L i j))) by (intros; apply E). rewrite <- q2r_sumN, <- q2r_1. f_equal. now apply H1.
Qed.
Lemma scaled_gen x L i j : scaled x L i j = gen (step_of L) x i j.
Proof. unfold scaled, gen, step_of. ring. Qed.
Lemma expm_zero n M : (forall i j, (i < n)%nat -> (j < n)%nat -> M i j = 0) -> expm n M reye.
Proof.
  intros HM i j Hi Hj. assert (E : forall m, sum_f_R0 (fun k => rpow n M k i j / INR (fact k)) m = reye i j).
  { induction m as [|m IH]; [cbn; field|]. cbn [sum_f_R0]. rewrite IH, rpow_S, (rsum_ext n _ (fun _ => 0)), rsum_const; [unfold Rdiv; ring|].
    intros c Hc. rewrite HM by assumption. ring. }
  intros e He. exists O. intros m _. rewrite E. unfold R_dist. rewrite Rminus_diag_eq, Rabs_R0; [exact He|reflexivity].
Qed.
Lemma some_entry_false n L : some_entry n L = false -> forall i j, (i < n)%nat -> (j < n)%nat -> L i j = 0%num.
Proof.
  unfold some_entry. intros H i j Hi Hj. destruct (qeqb_spec (L i j) 0%num) as [E|E]; [exact E|]. exfalso.
  assert (H' : existsb (fun i => existsb (fun j => negb (qeqb (L i j) 0%num)) (seq 0 n)) (seq 0 n) = true); [|congruence].
  apply existsb_exists. exists i. split; [apply in_seq; lia|]. apply existsb_exists. exists j. split; [apply in_seq; lia|].
  destruct (qeqb_spec (L i j) 0%num); [contradiction|reflexivity].
Qed.
Lemma inter_expm n x L F : inter_matrix n x L F <-> expm n (scaled x L) F.
Proof.
  unfold inter_matrix. destruct (some_entry n L) eqn:E; [tauto|]. pose proof (some_entry_false n L E) as HZ.
  assert (H0 : expm n (scaled x L) reye).
  { apply expm_zero. intros i j Hi Hj. unfold scaled, toR. rewrite HZ, q2r_0 by assumption. ring. }
  split; intros H.
  - apply (expm_ext n (scaled x L) (scaled x L) reye F); [intros i j _ _; reflexivity| |exact H0]. intros i j Hi Hj. symmetry. now apply H.
  - now apply (expm_unique n (scaled x L)).
Qed.
Lemma inter_Ex n x L F : walk_like n L -> inter_matrix n x L F -> same n F (Ex n (step_of L) x).
Proof.
  intros HL HF. apply inter_expm in HF. apply (expm_unique n (scaled x L)); [exact HF|].
  apply (expm_ext n (gen (step_of L) x) _ (Ex n (step_of L) x)); [intros i j _ _; symmetry; apply scaled_gen|intros i j _ _; reflexivity|apply Ex_expm; now apply step_prob].
Qed.
Lemma inter_exists n x L : walk_like n L -> inter_matrix n x L (Ex n (step_of L) x).
Proof.
  intros HL. apply inter_expm. apply (expm_ext n (gen (step_of L) x) _ (Ex n (step_of L) x)); [intros i j _ _; symmetry; apply scaled_gen|intros i j _ _; reflexivity|apply Ex_expm; now apply step_prob].
Qed.

(** * C156: a random walk in continuous time *)
Lemma prob_same n F G : same n F G -> prob_matrix n G -> prob_matrix n F.
Proof.
  intros H [H0 H1]. split; [intros i j Hi Hj; rewrite H by assumption; auto|]. intros i Hi. rewrite <- (H1 i Hi). apply rsum_ext. intros j Hj. now apply H.
Qed.
Lemma reaches_steps n L i j : walk_like n L -> (i < n)%nat -> (j < n)%nat ->
  (reaches n (fun a b => 0 < step_of L a b) i j <-> reaches n (fun a b => L a b <> 0%num) i j).
Proof.
  intros HL Hi Hj. pose proof (step_prob n L HL) as [S0 _].
  assert (K : forall a b, (a < n)%nat -> (b < n)%nat -> a <> b -> (0 < step_of L a b <-> L a b <> 0%num)).
  { intros a b Ha Hb Hne. unfold step_of, toR, reye. destruct (Nat.eqb_spec a b) as [|_]; [contradiction|]. destruct HL as (_ & _ & H3). destruct (H3 a b Ha Hb Hne) as [_ H4].
    apply q2r_le in H4. rewrite q2r_0 in H4. split; [intros H E; rewrite E, q2r_0 in H; lra|]. intros H. destruct (Req_dec (q2r (L a b)) 0) as [E|E]; [|lra]. exfalso. apply H, q2r_inj. now rewrite E, q2r_0. }
  assert (Hlt : forall R a b, reaches n R a b -> (a < n)%nat) by (intros R a b H; destruct H; assumption).
  split; intros H; (induction H as [i Hi'|i a b Hi' Ha Hs Hr IH]; [now constructor|]); specialize (IH Ha Hj); destruct (Nat.eq_dec i a) as [->|Hne]; try exact IH; (eapply reaches_step; [exact Hi'|exact Ha| |exact IH]); now apply K.
Qed.
Theorem C156_walk : forall n L x, walk_like n L -> 0 <= x ->
  (exists F, inter_matrix n x L F) /\
  forall F, inter_matrix n x L F ->
    prob_matrix n F /\
    (forall i j, (i < n)%nat -> (j < n)%nat -> still n L i -> F i j = reye i j) /\
    (0 < x -> forall i j, (i < n)%nat -> (j < n)%nat -> (0 < F i j <-> reaches n (fun a b => L a b <> 0%num) i j)) /\
    (forall y G H, 0 <= y -> inter_matrix n y L G -> inter_matrix n (x + y) L H -> same n H (times_matrix n F G)) /\
    forall G, inter_matrix n x L G -> same n F G.
Proof.
  intros n L x HL Hx. pose proof (step_prob n L HL) as HS. split; [eexists; now apply inter_exists|]. intros F HF. pose proof (inter_Ex n x L F HL HF) as EF.
  assert (HP : prob_matrix n F) by (apply (prob_same n F _ EF); now apply Ex_prob).
  assert (HR : 0 < x -> forall i j, (i < n)%nat -> (j < n)%nat -> (0 < F i j <-> reaches n (fun a b => L a b <> 0%num) i j)).
  { intros Hx0 i j Hi Hj. rewrite <- (reaches_steps n L i j HL Hi Hj), <- (Ex_reaches n (step_of L) HS x i j Hx0 Hi Hj). now rewrite EF. }
  split; [exact HP|]. split; [|split; [exact HR|split]].
  - intros i j Hi Hj Hst. destruct (Req_dec x 0) as [Ex0|Ex0].
    + rewrite EF by assumption. unfold Ex. rewrite Ex0, Ropp_0, exp_0, (P_0 n (step_of L) HS) by assumption. ring.
    + assert (HZ : forall k, (k < n)%nat -> k <> i -> F i k = 0).
      { intros k Hk Hne. destruct HP as [P0 _]. specialize (P0 i k Hi Hk). destruct (Rle_lt_or_eq_dec _ _ P0) as [H|H]; [|now symmetry]. exfalso.
        apply (HR ltac:(lra) i k Hi Hk) in H. inversion H as [|? a ? ? Ha Hs Hr]; subst; [contradiction|]. apply Hs. now apply Hst. }
      unfold reye. destruct (Nat.eqb_spec i j) as [<-|Hne]; [|apply HZ; auto]. destruct HP as [_ P1]. rewrite <- (P1 i Hi).
      rewrite <- (rsum_delta n i (F i) Hi). apply rsum_ext. intros k Hk. destruct (Nat.eqb_spec i k) as [<-|Hne]; [ring|]. rewrite HZ by auto. ring.
  - intros y G H Hy HG HH i j Hi Hj. rewrite (inter_Ex n (x + y) L H HL HH) by assumption. rewrite (Ex_plus n (step_of L) HS x y Hx Hy) by assumption.
    unfold times_matrix. apply rsum_ext. intros c Hc. now rewrite EF, (inter_Ex n y L G HL HG).
  - intros G HG i j Hi Hj. now rewrite EF, (inter_Ex n x L G HL HG).
Qed.
(** the Laplacians of a network *)
Theorem C156_network : forall fuel reset srcs tgts starts ends N g, make_net fuel reset false srcs tgts starts ends = Some N ->
  rows N <> [] -> ids_ok N = true -> no_self_contact (rows N) -> is_time_grid (rows N) g ->
  forall a b, exists ka kb Ls, compute_laplacians N g a b = Some (ka, kb, Ls) /\
    forall k lamda F, (k < kb - ka)%nat -> 0 <= lamda ->
      inter_matrix (num_nodes_of N) (q2r (nth (S (ka + k)) (times (rows N)) 0 - nth (ka + k) (times (rows N)) 0)%num * lamda) (nth k Ls ident) F -> prob_matrix (num_nodes_of N) F.
Proof.
  intros fuel reset srcs tgts starts ends N g HN Hne Hids Hself HG a b.
  destruct (C39_network_laplacians fuel reset srcs tgts starts ends N g HN Hne Hids Hself HG) as [HL HS]. destruct (HL a b) as (ka & kb & Ls & E & Hb & Hlen & HW).
  exists ka, kb, Ls. split; [exact E|]. intros k lamda F Hk Hl HF.
  assert (HI : (nth (ka + k) (times (rows N)) 0 < nth (S (ka + k)) (times (rows N)) 0)%num) by (apply qsorted_nth; [exact HS|lia|lia]).
  refine (proj1 (proj2 (C156_walk _ _ _ (HW k Hk) _) F HF)). apply Rmult_le_pos; [|exact Hl]. rewrite <- q2r_0. apply q2r_le. qlra.
Qed.
(** two nodes in contact *)
Definition lap2 (i j : nat) : num := match i, j with O, O | S O, S O => 1%num | O, S O | S O, O => (- (1))%num | _, _ => 0%num end.
Lemma lap2_ok : walk_like 2 lap2.
Proof.
  split; [|split].
  - intros i Hi. destruct i as [|[|i]]; try lia; vm_compute; now apply Qc_is_canon.
  - intros i Hi. right. destruct i as [|[|i]]; try lia; reflexivity.
  - intros i j Hi Hj Hn. destruct i as [|[|i]], j as [|[|j]]; try lia; split; vm_compute; discriminate.
Qed.
Example C156_applies : walk_like 2 lap2 /\ exists F, inter_matrix 2 1 lap2 F /\ 0 < F 0%nat 1%nat < 1.
Proof.
  split; [apply lap2_ok|]. destruct (C156_walk 2 lap2 1 lap2_ok ltac:(lra)) as [[F HF] H]. exists F. split; [exact HF|]. destruct (H F HF) as ([P0 P1] & _ & HR & _).
  assert (A : 0 < F 0%nat 1%nat) by (apply HR; [lra|lia|lia|]; apply (reaches_step 2 _ 0 1 1); [lia|lia|vm_compute; discriminate|constructor; lia]).
  assert (B : 0 < F 0%nat 0%nat) by (apply HR; [lra|lia|lia|]; constructor; lia).
  specialize (P1 0%nat ltac:(lia)). unfold rsum in P1. cbn in P1. lra.
Qed.

(** * C157: contacts are symmetric, so walks are reversible *)
Lemma weight_count n adj i : (i < n)%nat -> weight n adj i = INR (length (filter (steps_to n adj i) (seq 0 n))).
Proof.
  intros Hi. unfold weight. destruct (degree n adj i) as [|d] eqn:ED.
  - assert (Hp : Permutation (filter (steps_to n adj i) (seq 0 n)) [i]).
    { apply NoDup_Permutation; [apply NoDup_filter, seq_NoDup|repeat constructor; intros []|]. intros y. rewrite filter_In, in_seq. unfold steps_to. rewrite ED. cbn. rewrite orb_true_iff, Nat.eqb_eq. split.
      - intros [Hy [Ha|Ha]]; [|now left]. exfalso. pose proof (adj_degree n adj i y ltac:(lia) Ha). lia.
      - intros [<-|[]]. split; [lia|now right]. }
    apply Permutation_length in Hp. rewrite Hp. reflexivity.
  - rewrite <- ED. unfold degree. f_equal. f_equal. apply filter_ext. intros y. unfold steps_to. rewrite ED. cbn. now rewrite orb_false_r.
Qed.
Lemma weight_pos n adj i : 0 < weight n adj i.
Proof. unfold weight. destruct (degree n adj i) as [|d]; [lra|]. apply lt_0_INR. lia. Qed.
Lemma step_walk n adj L i j : eqm n L (fun i j => (if Nat.eqb i j then 1 else 0) - walk n adj i j)%num -> (i < n)%nat -> (j < n)%nat ->
  step_of L i j = if steps_to n adj i j then / weight n adj i else 0.
Proof.
  intros HL Hi Hj. unfold step_of, toR. rewrite HL by assumption. rewrite q2r_sub. change (if Nat.eqb i j then 1%num else 0%num) with (ident i j). rewrite <- toR_ident. unfold toR.
  destruct (steps_count n adj i Hi) as [Hp ->]; [|exact Hj]. rewrite weight_count by exact Hi. destruct (steps_to n adj i j); [|rewrite q2r_0; ring].
  rewrite q2r_div; [rewrite q2r_1, q2r_qn; field|].
  - apply not_0_INR. lia.
  - intros E. apply (f_equal q2r) in E. rewrite q2r_qn, q2r_0 in E. revert E. apply not_0_INR. lia.
Qed.
Lemma step_rev n adj L : eqm n L (fun i j => (if Nat.eqb i j then 1 else 0) - walk n adj i j)%num -> (forall i j, (i < n)%nat -> (j < n)%nat -> adj i j = adj j i) ->
  forall i j, (i < n)%nat -> (j < n)%nat -> weight n adj i * step_of L i j = weight n adj j * step_of L j i.
Proof.
  intros HL Hs i j Hi Hj. rewrite !(step_walk n adj L) by assumption. pose proof (weight_pos n adj i). pose proof (weight_pos n adj j).
  destruct (Nat.eq_dec i j) as [->|Hne]; [reflexivity|].
  assert (E : steps_to n adj i j = steps_to n adj j i).
  { unfold steps_to. rewrite (Hs i j Hi Hj). destruct (Nat.eqb_spec i j) as [|_]; [contradiction|]. destruct (Nat.eqb_spec j i) as [|_]; [congruence|]. now rewrite !andb_false_r. }
  rewrite E. destruct (steps_to n adj j i); [field; lra|ring].
Qed.
Theorem C157_reversible : forall n adj L x F, walk_like n L -> (forall i j, (i < n)%nat -> (j < n)%nat -> L i j = (if Nat.eqb i j then 1 else 0) - walk n adj i j)%num ->
  (forall i j, (i < n)%nat -> (j < n)%nat -> adj i j = adj j i) -> 0 <= x -> inter_matrix n x L F ->
  (forall i j, (i < n)%nat -> (j < n)%nat -> weight n adj i * F i j = weight n adj j * F j i) /\
  forall j, (j < n)%nat -> rsum n (fun i => weight n adj i * F i j) = weight n adj j.
Proof.
  intros n adj L x F HW HL Hs Hx HF. pose proof (inter_Ex n x L F HW HF) as EF. pose proof (step_prob n L HW) as HS.
  assert (HR : forall i j, (i < n)%nat -> (j < n)%nat -> weight n adj i * F i j = weight n adj j * F j i).
  { intros i j Hi Hj. rewrite !EF by assumption. apply (Ex_rev n (step_of L) HS); [|assumption|assumption]. now apply step_rev. }
  split; [exact HR|]. intros j Hj. rewrite (rsum_ext n _ (fun i => weight n adj j * F j i)) by (intros i Hi; now apply HR). rewrite rsum_scal.
  destruct (prob_same n F _ EF (Ex_prob n (step_of L) HS x Hx)) as [_ P1]. rewrite (P1 j Hj). ring.
Qed.
(** the Laplacians of a network are those of symmetric contacts *)
Theorem C157_network : forall fuel reset srcs tgts starts ends N g, make_net fuel reset false srcs tgts starts ends = Some N ->
  rows N <> [] -> ids_ok N = true -> no_self_contact (rows N) -> is_time_grid (rows N) g ->
  forall a b, exists ka kb Ls, compute_laplacians N g a b = Some (ka, kb, Ls) /\
    forall k, (k < kb - ka)%nat -> walk_like (num_nodes_of N) (nth k Ls ident) /\ exists adj, (forall i j, adj i j = adj j i) /\
      forall i j, (i < num_nodes_of N)%nat -> (j < num_nodes_of N)%nat -> nth k Ls ident i j = ((if Nat.eqb i j then 1 else 0) - walk (num_nodes_of N) adj i j)%num.
Proof.
  intros fuel reset srcs tgts starts ends N g HN Hne Hids Hself HG a b.
  assert (HO : own_index (rows N)). { unfold make_net in HN. destruct (build_table reset srcs tgts starts ends) as [t|] eqn:EB; [|discriminate]. injection HN as <-. now destruct (build_table_perm _ _ _ _ _ _ EB) as (_ & _ & _ & HO & _). }
  destruct (laplacians_gen N g a b (fun _ _ => True) (fun _ _ => True)) as (ka & kb & Ls & E & Ha & Hb & Sa & Sb & HLen & HK); auto.
  exists ka, kb, Ls. split; [exact E|]. intros k Hk. destruct (HK k Hk) as (on & s & W & _ & En). replace (nth k Ls ident) with (nth k Ls (fun _ _ => 0%num)) by (apply nth_indep; lia). rewrite En.
  split; [apply (walk_like_graph _ on); [apply W|intros; now apply laplacian_walk]|]. exists on. split; [apply W|intros; now apply laplacian_walk].
Qed.
Lemma path3_lap : walk_like 4 (fun i j => (if Nat.eqb i j then 1 else 0) - walk 4 path3 i j)%num.
Proof. apply (walk_like_graph 4 path3); [intros [|[|[|[|i]]]]; reflexivity|reflexivity]. Qed.
Example C157_applies : walk_like 4 (fun i j => (if Nat.eqb i j then 1 else 0) - walk 4 path3 i j)%num /\ (forall i j, path3 i j = path3 j i) /\
  map (degree 4 path3) [0; 1; 2; 3]%nat = [1; 2; 1; 0]%nat.
Proof. split; [apply path3_lap|]. split; [intros [|[|[|[|i]]]] [|[|[|[|j]]]]; reflexivity|reflexivity]. Qed.

(** * C158: error of the linear approximation *)
Theorem C158_linear_error : forall n L Pi t t_s F, walk_like n L -> (0 <= t)%num -> (t <= 1)%num -> inter_matrix n (q2r t) L F ->
  exists A, lin_approx (mminus ident L) t Pi t_s = Some A /\ forall i, (i < n)%nat -> difference n F (toR A) i <= 2 * q2r t * q2r t.
Proof.
  intros n L Pi t t_s F HL Ht Ht1 HF. unfold lin_approx. destruct (qltb_spec t 0%num) as [Hlt|_]; [exfalso; qlra|]. destruct (qleb_spec t 1%num) as [_|Hn]; [|contradiction].
  eexists. split; [reflexivity|]. intros i Hi. apply q2r_le in Ht. rewrite q2r_0 in Ht. pose proof (Ex_linear n (step_of L) (step_prob n L HL) (q2r t) i Ht Hi) as H.
  eapply Rle_trans; [|exact H]. right. unfold difference. apply rsum_ext. intros j Hj. rewrite (inter_Ex n (q2r t) L F HL HF) by assumption. f_equal. f_equal.
  unfold toR, mplus, mscal, mminus. rewrite q2r_add, !q2r_mul, !q2r_sub, q2r_1. unfold step_of. rewrite <- toR_ident. reflexivity.
Qed.
Example C158_applies : walk_like 2 lap2 /\ (0 <= qf 1 10)%num /\ (qf 1 10 <= 1)%num /\ exists F, inter_matrix 2 (q2r (qf 1 10)) lap2 F.
Proof. split; [apply lap2_ok|]. split; [vm_compute; discriminate|]. split; [vm_compute; discriminate|]. eexists. apply inter_exists, lap2_ok. Qed.

(** * C159: the stationary matrix is the limit for long times *)
Lemma linked_reaches n adj i j : (forall a b, (a < n)%nat -> (b < n)%nat -> adj a b = adj b a) -> forall R : nat -> nat -> Prop,
  (forall a b, (a < n)%nat -> (b < n)%nat -> a <> b -> (R a b <-> adj a b = true)) -> (i < n)%nat -> (j < n)%nat ->
  (linked n (fun a b => adj a b = true) i j <-> reaches n R i j).
Proof.
  intros Hs R HR Hi Hj.
  assert (Hadd : forall a b, reaches n R a b -> forall c, (c < n)%nat -> R b c -> reaches n R a c).
  { induction 1 as [a Ha|a b c Ha Hb Hab Hbc IH]; intros e He Hce; [eapply reaches_step; [exact Ha|exact He|exact Hce|now constructor]|].
    eapply reaches_step; [exact Ha|exact Hb|exact Hab|]. now apply IH. }
  assert (Hfront : forall b c, linked n (fun a b => adj a b = true) b c -> forall a, (a < n)%nat -> adj a b = true -> linked n (fun a b => adj a b = true) a c).
  { induction 1 as [b Hb|b c e Hbc IH He Hce]; intros a Ha Hab; [eapply linked_step; [now constructor|exact Hb|now left]|].
    eapply linked_step; [now apply IH|exact He|exact Hce]. }
  split; intros H.
  - induction H as [a Ha|a b c Hab IH Hc Hbc]; [now constructor|]. assert (Hb : (b < n)%nat) by (inversion Hab; assumption). specialize (IH Hi Hb).
    destruct (Nat.eq_dec b c) as [->|Hne]; [exact IH|]. apply (Hadd a b IH c Hc). apply HR; [assumption|assumption|assumption|]. destruct Hbc as [E|E]; [exact E|]. now rewrite (Hs b c Hb Hc).
  - induction H as [a Ha|a b c Ha Hb Hab Hbc IH]; [now constructor|]. specialize (IH Hb Hj). destruct (Nat.eq_dec a b) as [->|Hne]; [exact IH|].
    apply (Hfront b c IH a Ha). now apply HR.
Qed.
Theorem C159_long_times : forall n adj T L n_comp lab, csr_ok n T -> no_repetition T -> eqm n (value T) (walk n adj) ->
  (forall i j, (i < n)%nat -> (j < n)%nat -> adj i j = adj j i) -> component_labels n (value T) n_comp lab ->
  (forall i j, (i < n)%nat -> (j < n)%nat -> L i j = (if Nat.eqb i j then 1 else 0) - walk n adj i j)%num -> walk_like n L ->
  tends_to n (fun x F => inter_matrix n x L F) (toR (value (stationary_transition n lab T))).
Proof.
  intros n adj T L nc lab HT Hr HV Hs HC HL HW. pose proof (step_prob n L HW) as HS.
  assert (Hlab : forall i j, (i < n)%nat -> (j < n)%nat -> (lab i = lab j <-> reaches n (fun a b => 0 < step_of L a b) i j)).
  { intros i j Hi Hj. rewrite (proj2 HC i j Hi Hj).
    assert (K : forall a b, (a < n)%nat -> (b < n)%nat -> a <> b -> (adj a b = true <-> value T a b <> 0%num)).
    { intros a b Ha Hb Hne. rewrite (proj2 (walk_nonzeros n adj (value T) a HV Ha) b Hb). unfold steps_to. destruct (Nat.eqb_spec a b) as [|_]; [contradiction|]. now rewrite andb_false_r, orb_false_r. }
    rewrite <- (linked_reaches n adj i j Hs (fun a b => 0 < step_of L a b)); [| |exact Hi|exact Hj].
    - assert (Hlt : forall (R : nat -> nat -> Prop) a b, linked n R a b -> (b < n)%nat) by (intros R a b H; inversion H; assumption).
      split; intros H; (induction H as [i Hi'|i a b H IH Hb Hab]; [now apply linked_refl|]); pose proof (Hlt _ _ _ H) as Ha; specialize (IH Hi Ha);
        (destruct (Nat.eq_dec a b) as [->|Hne]; [exact IH|]); (eapply linked_step; [exact IH|exact Hb|]); (destruct Hab as [E|E]; [left|right]); apply K; auto.
    - intros a b Ha Hb Hne. rewrite (step_walk n adj L) by assumption. unfold steps_to. destruct (Nat.eqb_spec a b) as [|_]; [contradiction|]. rewrite andb_false_r, orb_false_r.
      destruct (adj a b); [|split; [lra|discriminate]]. split; [reflexivity|]. intros _. apply Rinv_0_lt_compat, weight_pos. }
  intros eps Heps. destruct (Ex_limit n (step_of L) HS (weight n adj) (fun i _ => weight_pos n adj i) (step_rev n adj L HL Hs) lab Hlab eps Heps) as (X & HX & HE).
  exists X. intros x F Hx HF i j Hi Hj. rewrite (inter_Ex n x L F HW HF) by assumption. specialize (HE x Hx i j Hi Hj).
  assert (E : toR (value (stationary_transition n lab T)) i j = limit n (weight n adj) lab i j); [|now rewrite E].
  unfold toR, limit. rewrite stationary_value by assumption. destruct (Nat.eqb (lab i) (lab j)); [|apply q2r_0].
  assert (HD : forall k, (k < n)%nat -> q2r (qn (degs_of T k)) = weight n adj k).
  { intros k Hk. rewrite q2r_qn, (degs_nonzeros n T k HT Hr Hk), weight_count by exact Hk. now destruct (walk_nonzeros n adj (value T) k HV Hk) as [-> _]. }
  assert (EM : q2r (sumN n (fun k => if Nat.eqb (lab k) (lab i) then qn (degs_of T k) else 0%num)) = mass n (weight n adj) lab i).
  { rewrite q2r_sumN. unfold mass. apply rsum_ext. intros k Hk. destruct (Nat.eqb (lab k) (lab i)); [now apply HD|apply q2r_0]. }
  rewrite q2r_div; [now rewrite HD, EM|]. intros E0. apply (f_equal q2r) in E0. rewrite EM, q2r_0 in E0. pose proof (mass_pos n (weight n adj) (fun i _ => weight_pos n adj i) lab i Hi). lra.
Qed.

Example C159_applies : exists lab, csr_ok 4 (csr_of_dense 4 (walk 4 path3)) /\ no_repetition (csr_of_dense 4 (walk 4 path3)) /\
  component_labels 4 (value (csr_of_dense 4 (walk 4 path3))) 2 lab /\ walk_like 4 (fun i j => (if Nat.eqb i j then 1 else 0) - walk 4 path3 i j)%num /\
  toR (value (stationary_transition 4 lab (csr_of_dense 4 (walk 4 path3)))) 0%nat 1%nat = 1 / 2.
Proof.
  exists lab44. destruct C44_applies as (H1 & H2 & _ & _ & H5 & H6). split; [exact H1|]. split; [exact H2|]. split; [exact H5|]. split; [apply path3_lap|].
  unfold toR. rewrite H6. unfold q2r. cbn. unfold Q2R. cbn. field.
Qed.

(** * C160: exponentials by components *)
Lemma rows_one n A F : (forall i, (i < n)%nat -> rsum n (A i) = 0) -> expm n A F -> forall i, (i < n)%nat -> rsum n (F i) = 1.
Proof.
  intros HA HF i Hi. pose proof (is_series_rsum n (fun j k => rpow n A k i j / INR (fact k)) (F i)
    (fun j Hj => proj2 (is_series_Reals _ _) (HF i j Hi Hj))) as H.
  apply is_series_Reals in H. refine (uniqueness_sum _ _ _ H _). intros e He. exists O. intros m _.
  assert (E : sum_f_R0 (fun k => rsum n (fun j => rpow n A k i j / INR (fact k))) m = 1).
  { assert (Z : forall k i, (i < n)%nat -> rsum n (rpow n A (S k) i) = 0).
    { induction k as [|k IH]; intros c Hc.
      - rewrite (rsum_ext n _ (A c)) by (intros j Hj; now apply rpow_1). auto.
      - rewrite (rsum_ext n _ (fun j => rsum n (fun e => A c e * rpow n A (S k) e j))) by (intros; apply rpow_S). rewrite rsum_swap.
        rewrite (rsum_ext n _ (fun _ => 0)), rsum_const; [ring|]. intros q Hq. rewrite rsum_scal, IH by exact Hq. ring. }
    induction m as [|m IH].
    - cbn [sum_f_R0 fact INR rpow]. rewrite (rsum_ext n _ (fun j => reye i j * 1)) by (intros; field). now apply (reye_left n (fun _ _ => 1) i 0%nat).
    - cbn [sum_f_R0]. rewrite IH. rewrite (rsum_ext n _ (fun j => / INR (fact (S m)) * rpow n A (S m) i j)) by (intros; unfold Rdiv; ring). rewrite rsum_scal, Z by exact Hi. ring. }
  rewrite E. unfold R_dist. rewrite Rminus_diag_eq, Rabs_R0; [exact He|reflexivity].
Qed.
Theorem C160_components : forall n A n_comp lab normalize F, (forall i, (i < n)%nat -> (lab i < n_comp)%nat) ->
  (forall i j, (i < n)%nat -> (j < n)%nat -> A i j <> 0 -> lab i = lab j) ->
  (normalize = true -> forall i, (i < n)%nat -> rsum n (A i) = 0) ->
  subspace_expm_real n A n_comp lab normalize F -> expm n A F.
Proof.
  intros n A nc lab norm F Hl Hc Hn (subs & Hs & ->). pose proof (blocks n A lab Hc nc subs Hl Hs) as HB. destruct norm; [|exact HB].
  apply (expm_ext n A A (put_together n lab subs)); [intros i j _ _; reflexivity| |exact HB]. intros i j Hi Hj. unfold row_normalised.
  rewrite (rows_one n A _ (Hn eq_refl) HB i Hi). field.
Qed.
(** exponentials of the parts exist: Laplacians of a walk *)
Example C160_applies : exists F, subspace_expm_real 4 (scaled 1 (fun i j => (if Nat.eqb i j then 1 else 0) - walk 4 path3 i j)%num) 2 lab44 true F.
Proof.
  set (L3 := fun i j => ((if Nat.eqb i j then 1 else 0) - walk 3 path3 i j)%num). assert (H3 : walk_like 3 L3) by (apply (walk_like_graph 3 path3); [intros [|[|[|[|i]]]]; reflexivity|reflexivity]).
  destruct (C156_walk 3 L3 1 H3 ltac:(lra)) as [[F3 HF3] _]. apply inter_expm in HF3.
  eexists. exists (fun c => match c with O => F3 | _ => reye end). split; [|reflexivity]. intros c Hc. destruct c as [|[|c]]; [| |lia].
  - change (cmp_indices 4 lab44 0) with [0; 1; 2]%nat. apply (expm_ext 3 (scaled 1 L3) _ F3 F3); [|intros i j _ _; reflexivity|exact HF3].
    intros i j Hi Hj. unfold sub_matrix, scaled. f_equal. unfold toR, L3. f_equal. destruct i as [|[|[|i]]], j as [|[|[|j]]]; try lia; reflexivity.
  - change (cmp_indices 4 lab44 1) with [3]%nat. apply expm_zero. intros i j Hi Hj. cbn in Hi, Hj. replace i with O by lia. replace j with O by lia. unfold sub_matrix, scaled, toR. cbn [nth].
    replace ((if Nat.eqb 3 3 then 1 else 0) - walk 4 path3 3 3)%num with 0%num by (vm_compute; now apply Qc_is_canon). rewrite q2r_0. ring.
Qed.

Print Assumptions C156_walk.
Print Assumptions C156_network.
Print Assumptions C157_reversible.
Print Assumptions C157_network.
Print Assumptions C158_linear_error.
Print Assumptions C159_long_times.
Print Assumptions C160_components.
