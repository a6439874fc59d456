(** Eigenvalues of the matrix that [find_spectral_gap] gives to eigsh. *)
From Coq Require Import Reals Lra Lia.
From Verif Require Import Base GapModel GapSpec.
Local Open Scope R_scope.

Lemma rsum_S n f : rsum (S n) f = rsum n f + f n.
Proof.
  unfold rsum. rewrite seq_S, map_app, fold_right_app. cbn [map fold_right plus].
  generalize (f n). intros c. induction (map f (seq 0 n)) as [|a l IH]; cbn [fold_right]; [lra|].
  rewrite IH. lra.
Qed.
Lemma rsum_0 f : rsum 0 f = 0. Proof. reflexivity. Qed.
Lemma rsum_ext n f g : (forall i, (i < n)%nat -> f i = g i) -> rsum n f = rsum n g.
Proof.
  induction n as [|n IH]; intros H; [reflexivity|]. rewrite !rsum_S, IH, (H n); auto.
Qed.
Lemma rsum_add n f g : rsum n (fun i => f i + g i) = rsum n f + rsum n g.
Proof. induction n as [|n IH]; [rewrite !rsum_0; lra|rewrite !rsum_S, IH; lra]. Qed.
Lemma rsum_sub n f g : rsum n (fun i => f i - g i) = rsum n f - rsum n g.
Proof. induction n as [|n IH]; [rewrite !rsum_0; lra|rewrite !rsum_S, IH; lra]. Qed.
Lemma rsum_scal n c f : rsum n (fun i => c * f i) = c * rsum n f.
Proof. induction n as [|n IH]; [rewrite !rsum_0; lra|rewrite !rsum_S, IH; lra]. Qed.
Lemma rsum_const n c : rsum n (fun _ => c) = INR n * c.
Proof. induction n as [|n IH]; [rewrite rsum_0; cbn; lra|rewrite rsum_S, IH, S_INR; lra]. Qed.
Lemma rsum_swap n m (f : nat -> nat -> R) :
  rsum n (fun i => rsum m (f i)) = rsum m (fun j => rsum n (fun i => f i j)).
Proof.
  induction n as [|n IH].
  - rewrite rsum_0. rewrite (rsum_ext m _ (fun _ => 0)) by (intros; apply rsum_0).
    rewrite rsum_const. lra.
  - rewrite rsum_S, IH, <- rsum_add. apply rsum_ext. intros j _. now rewrite rsum_S.
Qed.
Lemma rsum_le n f g : (forall i, (i < n)%nat -> f i <= g i) -> rsum n f <= rsum n g.
Proof.
  induction n as [|n IH]; intros H; [rewrite !rsum_0; lra|]. rewrite !rsum_S.
  assert (rsum n f <= rsum n g) by (apply IH; auto). assert (f n <= g n) by auto. lra.
Qed.
Lemma rsum_abs n f : Rabs (rsum n f) <= rsum n (fun i => Rabs (f i)).
Proof.
  induction n as [|n IH]; [rewrite !rsum_0, Rabs_R0; lra|]. rewrite !rsum_S.
  eapply Rle_trans; [apply Rabs_triang|]. lra.
Qed.
Lemma rsum_nonneg_zero n f : (forall i, (i < n)%nat -> 0 <= f i) -> rsum n f = 0 ->
  forall i, (i < n)%nat -> f i = 0.
Proof.
  induction n as [|n IH]; intros Hp Hs i Hi; [lia|]. rewrite rsum_S in Hs.
  assert (H0 : 0 <= rsum n f).
  { rewrite <- (Rmult_0_r (INR n)), <- rsum_const. apply rsum_le. auto. }
  assert (Hn := Hp n (Nat.lt_succ_diag_r n)).
  destruct (Nat.eq_dec i n) as [->|Hne]; [lra|]. apply IH; [auto|lra|lia].
Qed.
Lemma rsum_delta n i f : (i < n)%nat -> rsum n (fun j => (if Nat.eqb i j then 1 else 0) * f j) = f i.
Proof.
  intros Hi. induction n as [|n IH]; [lia|]. rewrite rsum_S.
  destruct (Nat.eq_dec i n) as [->|Hne].
  - rewrite Nat.eqb_refl. rewrite (rsum_ext n _ (fun _ => 0)).
    + rewrite rsum_const. lra.
    + intros j Hj. destruct (Nat.eqb_spec n j); [lia|lra].
  - destruct (Nat.eqb_spec i n); [lia|]. rewrite IH by lia. lra.
Qed.
Lemma rsum_count n (p : nat -> bool) : rsum n (fun j => if p j then 1 else 0) = INR (length (filter p (seq 0 n))).
Proof.
  induction n as [|n IH]; [reflexivity|]. rewrite rsum_S, IH, seq_S, filter_app, app_length, plus_INR.
  cbn [filter plus]. destruct (p n); cbn; lra.
Qed.
(** a position of the largest value *)
Lemma argmax n f : (0 < n)%nat -> exists i, (i < n)%nat /\ forall j, (j < n)%nat -> f j <= f i.
Proof.
  induction n as [|n IH]; intros Hn; [lia|]. destruct (Nat.eq_dec n 0) as [->|Hz].
  - exists 0%nat. split; [lia|]. intros j Hj. replace j with 0%nat by lia. lra.
  - destruct IH as [i [Hi Hm]]; [lia|]. destruct (Rle_dec (f n) (f i)) as [Hle|Hgt].
    + exists i. split; [lia|]. intros j Hj. destruct (Nat.eq_dec j n) as [->|]; [exact Hle|apply Hm; lia].
    + exists n. split; [lia|]. intros j Hj. destruct (Nat.eq_dec j n) as [->|]; [lra|].
      assert (f j <= f i) by (apply Hm; lia). lra.
Qed.

Section Graph.
Context (n : nat) (A : nat -> nat -> bool).
Hypothesis Hn : (2 <= n)%nat.
Hypothesis Hsym : undirected n A.
Hypothesis Hcon : connected n A.

Let L := walk_laplacian n A.
Let d i := INR (neighbours n A i).

Lemma path_snoc i j : path n A i j -> i <> j -> exists k, (k < n)%nat /\ A k j = true.
Proof.
  intros Hp. induction Hp as [i Hi|i j k Hp IH Hk Ha]; [easy|]. intros _.
  exists j. split; [|exact Ha]. clear - Hp. induction Hp; assumption.
Qed.
Lemma d_pos i : (i < n)%nat -> 0 < d i.
Proof using Hn Hsym Hcon.
  intros Hi. unfold d. replace 0 with (INR 0) by reflexivity. apply lt_INR. unfold neighbours.
  assert (exists j, (j < n)%nat /\ j <> i) as [j [Hj Hne]].
  { destruct (Nat.eq_dec i 0); [exists 1%nat|exists 0%nat]; lia. }
  destruct (path_snoc j i (Hcon j i Hj Hi) Hne) as [k [Hk Ha]].
  assert (In k (filter (A i) (seq 0 n))) as Hin.
  { apply filter_In. split; [apply in_seq; lia|]. rewrite Hsym by lia. exact Ha. }
  destruct (filter (A i) (seq 0 n)); [easy|cbn; lia].
Qed.
Lemma degs_walk i : (i < n)%nat -> degs n L i = d i.
Proof using Hn Hsym Hcon.
  intros Hi. unfold degs, d, neighbours. f_equal. f_equal. apply filter_ext_in.
  intros j Hj. unfold L, walk_laplacian, reye.
  replace ((if Nat.eqb i j then 1 else 0) - ((if Nat.eqb i j then 1 else 0) - (if A i j then / INR (neighbours n A i) else 0)))
    with (if A i j then / INR (neighbours n A i) else 0) by lra.
  destruct (A i j).
  - destruct (Req_EM_T (/ INR (neighbours n A i)) 0) as [E|]; [|reflexivity].
    assert (H := Rinv_0_lt_compat _ (d_pos i Hi)). unfold d in H. lra.
  - destruct (Req_EM_T 0 0); [reflexivity|lra].
Qed.
Lemma sum_d_pos : 0 < rsum n d.
Proof using Hn Hsym Hcon.
  destruct (Rle_lt_dec (rsum n d) 0) as [Hle|]; [|assumption].
  assert (H0 : 0 <= rsum n d).
  { rewrite <- (Rmult_0_r (INR n)), <- rsum_const. apply rsum_le. intros i Hi. apply Rlt_le, d_pos, Hi. }
  assert (d 0%nat = 0).
  { apply (rsum_nonneg_zero n d); [intros i Hi; apply Rlt_le, d_pos, Hi|lra|lia]. }
  assert (Hp := d_pos 0%nat ltac:(lia)). lra.
Qed.
Lemma gap_entry i j : (i < n)%nat -> (j < n)%nat ->
  gap_matrix n L i j = sqrt (d i) * L i j * (1 / sqrt (d j)) - d j / rsum n d.
Proof using Hn Hsym Hcon.
  intros Hi Hj. unfold gap_matrix, lsym, stat_rows. rewrite !degs_walk by assumption.
  now rewrite (rsum_ext n (degs n L) d) by (intros; now apply degs_walk).
Qed.
(** the first matrix is symmetric *)
Lemma lsym_sym i j : (i < n)%nat -> (j < n)%nat ->
  sqrt (d i) * L i j * (1 / sqrt (d j)) = sqrt (d j) * L j i * (1 / sqrt (d i)).
Proof using Hn Hsym Hcon.
  intros Hi Hj. assert (Hdi := d_pos i Hi). assert (Hdj := d_pos j Hj).
  assert (Hsi := sqrt_lt_R0 _ Hdi). assert (Hsj := sqrt_lt_R0 _ Hdj).
  unfold L, walk_laplacian. rewrite (Hsym j i) by assumption. fold (d i) (d j).
  rewrite (Nat.eqb_sym j i). destruct (Nat.eqb_spec i j) as [->|Hne]; [lra|].
  destruct (A i j); [|lra].
  rewrite <- (sqrt_sqrt (d i)) at 2 by lra. rewrite <- (sqrt_sqrt (d j)) at 3 by lra.
  field. lra.
Qed.
Lemma symmetric_iff : rsymmetric n (gap_matrix n L) <-> regular n A.
Proof using Hn Hsym Hcon.
  assert (Hs := sum_d_pos). split.
  - intros H i j Hi Hj. specialize (H i j Hi Hj). rewrite !gap_entry in H by assumption.
    rewrite (lsym_sym i j Hi Hj) in H. apply INR_eq. fold (d i) (d j).
    assert (E : d j / rsum n d = d i / rsum n d) by lra.
    apply (f_equal (fun x => x * rsum n d)) in E. field_simplify in E; lra.
  - intros H i j Hi Hj. rewrite !gap_entry by assumption. rewrite (lsym_sym i j Hi Hj).
    assert (E : d i = d j) by (unfold d; now rewrite (H i j Hi Hj)). now rewrite E.
Qed.

(** ** the Laplacian *)
Definition walk i j : R := if A i j then / d i else 0.
Lemma walk_nonneg i j : (i < n)%nat -> 0 <= walk i j.
Proof using Hn Hsym Hcon.
  intros Hi. unfold walk. destruct (A i j); [apply Rlt_le, Rinv_0_lt_compat, d_pos, Hi|lra].
Qed.
Lemma walk_sum i : (i < n)%nat -> rsum n (walk i) = 1.
Proof using Hn Hsym Hcon.
  intros Hi. assert (Hd := d_pos i Hi).
  rewrite (rsum_ext n _ (fun j => / d i * (if A i j then 1 else 0))).
  - rewrite rsum_scal, rsum_count. fold (neighbours n A i). fold (d i). field. lra.
  - intros j _. unfold walk. destruct (A i j); lra.
Qed.
Lemma lap_apply v i : (i < n)%nat -> rsum n (fun j => L i j * v j) = v i - rsum n (fun j => walk i j * v j).
Proof using.
  intros Hi. rewrite <- (rsum_delta n i v Hi) at 1. rewrite <- rsum_sub. apply rsum_ext.
  intros j Hj. unfold L, walk_laplacian, walk, d. lra.
Qed.
Lemma walk_ones i : (i < n)%nat -> rsum n (fun j => L i j * 1) = 0.
Proof using Hn Hsym Hcon.
  intros Hi. rewrite (lap_apply (fun _ => 1) i Hi).
  rewrite (rsum_ext n _ (walk i)) by (intros; lra). rewrite walk_sum by assumption. lra.
Qed.
(** all eigenvalues are at least zero *)
Lemma lap_nonneg mu : eigenvalue n L mu -> 0 <= mu.
Proof using Hn Hsym Hcon.
  intros [v [[k [Hk Hv]] He]].
  destruct (argmax n (fun i => Rabs (v i))) as [i [Hi Hm]]; [lia|].
  assert (Hpos : 0 < Rabs (v i)).
  { eapply Rlt_le_trans; [apply Rabs_pos_lt, Hv|exact (Hm k Hk)]. }
  specialize (He i Hi). rewrite (lap_apply v i Hi) in He.
  assert (E : rsum n (fun j => walk i j * v j) = (1 - mu) * v i) by lra.
  assert (Hb : Rabs (rsum n (fun j => walk i j * v j)) <= Rabs (v i)).
  { eapply Rle_trans; [apply rsum_abs|].
    rewrite <- (Rmult_1_r (Rabs (v i))), <- (walk_sum i Hi), <- rsum_scal. apply rsum_le.
    intros j Hj. rewrite Rabs_mult, (Rabs_pos_eq (walk i j)) by now apply walk_nonneg.
    assert (Hw := walk_nonneg i j Hi). specialize (Hm j Hj). cbv beta in Hm. nra. }
  rewrite E, Rabs_mult in Hb.
  assert (Rabs (1 - mu) <= 1) by nra.
  assert (H1 := Rle_abs (1 - mu)). lra.
Qed.
(** a vector without change is constant *)
Lemma lap_kernel v : (forall i, (i < n)%nat -> rsum n (fun j => L i j * v j) = 0) ->
  forall i j, (i < n)%nat -> (j < n)%nat -> v i = v j.
Proof using Hn Hsym Hcon.
  intros He. destruct (argmax n v) as [m [Hm Hmax]]; [lia|].
  assert (Hstep : forall j k, (j < n)%nat -> (k < n)%nat -> v j = v m -> A j k = true -> v k = v m).
  { intros j k Hj Hk Ej Ha. specialize (He j Hj). rewrite (lap_apply v j Hj) in He.
    assert (Hz : rsum n (fun l => walk j l * (v m - v l)) = 0).
    { rewrite (rsum_ext n _ (fun l => v m * walk j l - walk j l * v l)) by (intros; lra).
      rewrite rsum_sub, rsum_scal, walk_sum by assumption. lra. }
    assert (Hw : walk j k * (v m - v k) = 0).
    { apply (rsum_nonneg_zero n (fun l => walk j l * (v m - v l))); [|exact Hz|exact Hk].
      intros l Hl. assert (H1 := walk_nonneg j l Hj). assert (H2 := Hmax l Hl). nra. }
    unfold walk in Hw. rewrite Ha in Hw. assert (Hd := Rinv_0_lt_compat _ (d_pos j Hj)).
    apply Rmult_integral in Hw. lra. }
  assert (Hall : forall i, (i < n)%nat -> v i = v m).
  { intros i Hi. assert (Hp := Hcon m i Hm Hi). 
    assert (G : forall a b, path n A a b -> v a = v m -> v b = v m).
    { intros a b Hab. induction Hab as [a Ha|a b c Hab IH Hc Hbc]; [auto|].
      intros Ea. apply (Hstep b c); auto. clear - Hab. induction Hab; assumption. }
    exact (G m i Hp eq_refl). }
  intros i j Hi Hj. now rewrite (Hall i Hi), (Hall j Hj).
Qed.

(** ** regular graphs *)
Hypothesis Hreg : regular n A.

Lemma gap_regular i j : (i < n)%nat -> (j < n)%nat -> gap_matrix n L i j = L i j - / INR n.
Proof using Hn Hsym Hcon Hreg.
  intros Hi Hj. rewrite gap_entry by assumption.
  assert (E : d i = d j) by (unfold d; now rewrite (Hreg i j Hi Hj)). rewrite E.
  rewrite (rsum_ext n d (fun _ => d j)).
  - rewrite rsum_const. assert (Hd := d_pos j Hj). assert (Hs := sqrt_lt_R0 _ Hd).
    assert (0 < INR n) by (replace 0 with (INR 0) by reflexivity; apply lt_INR; lia).
    field. split; lra.
  - intros k Hk. unfold d. now rewrite (Hreg k j Hk Hj).
Qed.
Lemma lap_sym i j : (i < n)%nat -> (j < n)%nat -> L i j = L j i.
Proof using Hn Hsym Hreg.
  intros Hi Hj. unfold L, walk_laplacian. rewrite (Hsym j i) by assumption.
  now rewrite (Nat.eqb_sym j i), (Hreg j i Hj Hi).
Qed.
Lemma sum_lap v : rsum n (fun i => rsum n (fun j => L i j * v j)) = 0.
Proof using Hn Hsym Hcon Hreg.
  rewrite rsum_swap. rewrite (rsum_ext n _ (fun _ => 0)); [rewrite rsum_const; lra|].
  intros j Hj. rewrite (rsum_ext n _ (fun i => v j * (L j i * 1))).
  - rewrite rsum_scal, walk_ones by assumption. lra.
  - intros i Hi. rewrite (lap_sym i j) by assumption. lra.
Qed.
Lemma gap_apply v i : (i < n)%nat ->
  rsum n (fun j => gap_matrix n L i j * v j) = rsum n (fun j => L i j * v j) - / INR n * rsum n v.
Proof using Hn Hsym Hcon Hreg.
  intros Hi. rewrite <- rsum_scal, <- rsum_sub. apply rsum_ext. intros j Hj.
  rewrite gap_regular by assumption. lra.
Qed.
Lemma INR_n_pos : 0 < INR n.
Proof using Hn. replace 0 with (INR 0) by reflexivity. apply lt_INR; lia. Qed.

(** eigenvalues of the Laplacian other than zero stay *)
Lemma eig_up mu : eigenvalue n L mu -> mu <> 0 -> eigenvalue n (gap_matrix n L) mu.
Proof using Hn Hsym Hcon Hreg.
  intros [v [Hv He]] Hmu. exists v. split; [exact Hv|]. intros i Hi. rewrite gap_apply by assumption.
  assert (Hs : rsum n v = 0).
  { assert (E := sum_lap v). rewrite (rsum_ext n _ (fun i => mu * v i)) in E by assumption.
    rewrite rsum_scal in E. apply Rmult_integral in E. tauto. }
  rewrite Hs, (He i Hi). lra.
Qed.
(** the other eigenvalue is -1 *)
Lemma eig_minus_one : eigenvalue n (gap_matrix n L) (-1).
Proof using Hn Hsym Hcon Hreg.
  exists (fun _ => 1). split; [exists 0%nat; split; [lia|lra]|].
  intros i Hi. rewrite (gap_apply (fun _ => 1)) by assumption. rewrite walk_ones, rsum_const by assumption.
  assert (H := INR_n_pos). field. lra.
Qed.
Lemma eig_down mu : eigenvalue n (gap_matrix n L) mu -> mu = -1 \/ (eigenvalue n L mu /\ 0 < mu).
Proof using Hn Hsym Hcon Hreg.
  intros [v [Hv He]]. assert (Hnp := INR_n_pos).
  assert (E : (mu + 1) * rsum n v = 0).
  { assert (E : rsum n (fun i => rsum n (fun j => gap_matrix n L i j * v j)) = mu * rsum n v).
    { rewrite <- rsum_scal. apply rsum_ext. exact He. }
    rewrite (rsum_ext n _ (fun i => rsum n (fun j => L i j * v j) - / INR n * rsum n v)) in E
      by (intros; now apply gap_apply).
    rewrite rsum_sub, sum_lap, rsum_const in E.
    assert (INR n * (/ INR n * rsum n v) = rsum n v) by (field; lra). lra. }
  apply Rmult_integral in E. destruct E as [E|E]; [left; lra|right].
  assert (Hl : forall i, (i < n)%nat -> rsum n (fun j => L i j * v j) = mu * v i).
  { intros i Hi. specialize (He i Hi). rewrite gap_apply, E in He by assumption. lra. }
  assert (Hev : eigenvalue n L mu) by (exists v; auto).
  split; [exact Hev|]. assert (H0 := lap_nonneg mu Hev).
  destruct (Req_dec mu 0) as [Hz|]; [exfalso|lra]. subst mu.
  destruct Hv as [k [Hk Hv]]. apply Hv.
  assert (Hc := lap_kernel v (fun i Hi => eq_trans (Hl i Hi) (Rmult_0_l _))).
  rewrite (rsum_ext n v (fun _ => v k)), rsum_const in E by (intros; now apply Hc).
  apply Rmult_integral in E. lra.
Qed.
End Graph.
