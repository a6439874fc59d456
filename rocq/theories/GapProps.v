(** Property C150: the spectral gap. *)
From Coq Require Import Reals Lra Lia.
From Verif Require Import Base GapModel GapSpec GapProofs.
Local Open Scope R_scope.

(** * C150: [find_spectral_gap] returns the smallest eigenvalue of the Laplacian that is not zero.
    The hypothesis that the matrix is symmetric is what eigsh asks for. *)
Definition C150_statement : Prop := forall n A g,
  (2 <= n)%nat -> undirected n A -> connected n A -> rsymmetric n (gap_matrix n (walk_laplacian n A)) ->
  find_spectral_gap n (walk_laplacian n A) g -> spectral_gap n (walk_laplacian n A) g.

(** The matrix is symmetric for regular graphs only: on every other graph eigsh is used outside
    its contract. *)
Theorem C150_symmetric_iff_regular n A : (2 <= n)%nat -> undirected n A -> connected n A ->
  (rsymmetric n (gap_matrix n (walk_laplacian n A)) <-> regular n A).
Proof. intros Hn Hs Hc. now apply symmetric_iff. Qed.

(** On a regular graph the eigenvalues given to eigsh are -1 and those of the Laplacian that are
    not zero. *)
Theorem C150_eigenvalues n A mu : (2 <= n)%nat -> undirected n A -> connected n A -> regular n A ->
  (eigenvalue n (gap_matrix n (walk_laplacian n A)) mu <->
   mu = -1 \/ (eigenvalue n (walk_laplacian n A) mu /\ mu <> 0)).
Proof.
  intros Hn Hs Hc Hr. split.
  - intros H. destruct (eig_down n A Hn Hs Hc Hr mu H) as [E|[E Hp]]; [now left|right]. split; [exact E|lra].
  - intros [->|[E Hz]]; [now apply eig_minus_one|now apply eig_up].
Qed.

(** Proved: the result is right when the gap is below one. *)
Theorem C150_gap_partial n A g : (2 <= n)%nat -> undirected n A -> connected n A -> regular n A ->
  (exists mu, eigenvalue n (walk_laplacian n A) mu /\ 0 < mu < 1) ->
  find_spectral_gap n (walk_laplacian n A) g -> spectral_gap n (walk_laplacian n A) g.
Proof.
  intros Hn Hs Hc Hr [mu [Hmu Hb]] [He Hmin].
  assert (H1 := Hmin mu (eig_up n A Hn Hs Hc Hr mu Hmu ltac:(lra))). rewrite (Rabs_pos_eq mu) in H1 by lra.
  destruct (eig_down n A Hn Hs Hc Hr g He) as [->|[Hg Hp]].
  { rewrite Rabs_left in H1; lra. }
  split; [exact Hg|]. split; [exact Hp|]. intros nu Hnu Hz.
  assert (H2 := Hmin nu (eig_up n A Hn Hs Hc Hr nu Hnu Hz)). assert (H0 := lap_nonneg n A Hn Hs Hc nu Hnu).
  rewrite !Rabs_pos_eq in H2 by lra. exact H2.
Qed.
(** Proved: when the gap is above one the result is -1, which is no eigenvalue of the Laplacian. *)
Theorem C150_wrong_above_one n A g : (2 <= n)%nat -> undirected n A -> connected n A -> regular n A ->
  (forall mu, eigenvalue n (walk_laplacian n A) mu -> mu <> 0 -> 1 < mu) ->
  find_spectral_gap n (walk_laplacian n A) g -> g = -1 /\ ~ eigenvalue n (walk_laplacian n A) g.
Proof.
  intros Hn Hs Hc Hr Hall [He Hmin].
  assert (Eg : g = -1).
  { destruct (eig_down n A Hn Hs Hc Hr g He) as [E|[Hg Hp]]; [exact E|exfalso].
    assert (H1 := Hmin (-1) (eig_minus_one n A Hn Hs Hc Hr)). assert (H2 := Hall g Hg ltac:(lra)).
    rewrite Rabs_pos_eq, Rabs_left in H1; lra. }
  split; [exact Eg|]. intros H. assert (H0 := lap_nonneg n A Hn Hs Hc g H). lra.
Qed.

(** ** two nodes and one edge *)
Definition k2 (i j : nat) : bool := negb (Nat.eqb i j).
Lemma k2_undirected n : undirected n k2.
Proof. intros i j _ _. unfold k2. now rewrite Nat.eqb_sym. Qed.
Lemma kn_connected n : connected n k2.
Proof.
  intros i j Hi Hj. destruct (Nat.eq_dec i j) as [->|Hne]; [now constructor|].
  apply (path_step n k2 i i j); [now constructor|exact Hj|]. unfold k2. destruct (Nat.eqb_spec i j); [lia|reflexivity].
Qed.
Lemma k2_regular : regular 2 k2.
Proof. intros [|[|i]] [|[|j]] Hi Hj; (reflexivity || lia). Qed.
Lemma k2_eigenvalues mu : eigenvalue 2 (walk_laplacian 2 k2) mu -> mu = 0 \/ mu = 2.
Proof.
  intros [v [[k [Hk Hv]] He]]. assert (H0 := He 0%nat ltac:(lia)). assert (H1 := He 1%nat ltac:(lia)).
  assert (G : forall f, rsum 2 f = f 0%nat + f 1%nat) by (intros f; rewrite !rsum_S, rsum_0; lra).
  rewrite G in H0, H1. unfold walk_laplacian in H0, H1. cbn in H0, H1.
  assert (Ea : mu * (v 0%nat + v 1%nat) = 0) by lra.
  assert (Eb : (mu - 2) * (v 0%nat - v 1%nat) = 0) by lra.
  apply Rmult_integral in Ea, Eb. destruct Ea as [Ea|Ea]; [lra|]. destruct Eb as [Eb|Eb]; [lra|].
  exfalso. apply Hv. destruct k as [|[|k]]; [lra|lra|lia].
Qed.
Lemma k2_result : find_spectral_gap 2 (walk_laplacian 2 k2) (-1).
Proof.
  assert (Hu := k2_undirected 2). assert (Hc := kn_connected 2). assert (Hr := k2_regular).
  split; [now apply eig_minus_one|]. intros mu Hmu.
  destruct (eig_down 2 k2 ltac:(lia) Hu Hc Hr mu Hmu) as [->|[He Hp]]; [lra|].
  destruct (k2_eigenvalues mu He) as [-> | ->]; [lra|]. rewrite Rabs_left, Rabs_pos_eq; lra.
Qed.
(** Refuted: for two nodes and one edge the result is -1, the gap is 2. *)
Theorem C150_gap_refuted : ~ C150_statement.
Proof.
  intros H. assert (Hu := k2_undirected 2). assert (Hc := kn_connected 2).
  destruct (H 2%nat k2 (-1) ltac:(lia) Hu Hc) as [_ [Hp _]].
  - apply C150_symmetric_iff_regular; [lia|exact Hu|exact Hc|exact k2_regular].
  - exact k2_result.
  - lra.
Qed.
Example C150_wrong_above_one_example :
  (forall mu, eigenvalue 2 (walk_laplacian 2 k2) mu -> mu <> 0 -> 1 < mu) /\ eigenvalue 2 (walk_laplacian 2 k2) 2.
Proof.
  split.
  - intros mu Hmu Hz. destruct (k2_eigenvalues mu Hmu); lra.
  - exists (fun i => if Nat.eqb i 0 then 1 else -1). split; [exists 0%nat; split; [lia|cbn; lra]|].
    intros [|[|i]] Hi; [| |lia]; rewrite !rsum_S, rsum_0; unfold walk_laplacian; cbn; lra.
Qed.

(** ** a cycle of six nodes: the gap is 1/2 *)
Definition ring6 (i j : nat) : bool := Nat.eqb j (S i mod 6) || Nat.eqb i (S j mod 6).
Lemma ring6_undirected : undirected 6 ring6.
Proof. intros i j _ _. unfold ring6. apply Bool.orb_comm. Qed.
Lemma path_trans n A a b c : path n A b c -> path n A a b -> path n A a c.
Proof.
  intros Hbc Hab. induction Hbc as [b Hb|b c e Hbc IH He Hce]; [exact Hab|].
  apply (path_step n A a c); auto.
Qed.
Lemma ring6_connected : connected 6 ring6.
Proof.
  assert (H0 : forall j, (j < 6)%nat -> path 6 ring6 0 j).
  { induction j as [|j IH]; intros Hj; [constructor; lia|].
    apply (path_step 6 ring6 0 j); [apply IH; lia|lia|]. unfold ring6. rewrite Nat.mod_small by lia.
    now rewrite Nat.eqb_refl. }
  assert (H1 : forall i j, path 6 ring6 i j -> path 6 ring6 j i).
  { intros i j Hij. induction Hij as [i Hi|i j k Hij IH Hk Hjk]; [now constructor|].
    assert (Hj : (j < 6)%nat) by (clear - Hij; induction Hij; assumption).
    apply (path_trans 6 ring6 k j i IH). apply (path_step 6 ring6 k k); [now constructor|exact Hj|].
    rewrite ring6_undirected; assumption. }
  intros i j Hi Hj. exact (path_trans 6 ring6 i 0 j (H0 j Hj) (H1 0%nat i (H0 i Hi))).
Qed.
Lemma ring6_regular : regular 6 ring6.
Proof.
  assert (H : forall i, (i < 6)%nat -> neighbours 6 ring6 i = 2%nat).
  { intros i Hi. do 6 (destruct i as [|i]; [reflexivity|]). lia. }
  intros i j Hi Hj. now rewrite (H i Hi), (H j Hj).
Qed.
Lemma ring6_half : eigenvalue 6 (walk_laplacian 6 ring6) (1 / 2).
Proof.
  exists (fun i => nth i [2; 1; -1; -2; -1; 1] 0). split; [exists 0%nat; split; [lia|cbn; lra]|].
  intros i Hi. do 6 (destruct i as [|i]; [rewrite !rsum_S, rsum_0; unfold walk_laplacian; cbn; lra|]). lia.
Qed.
Lemma ring6_eigenvalues mu : eigenvalue 6 (walk_laplacian 6 ring6) mu -> mu = 0 \/ mu = 1 / 2 \/ mu = 3 / 2 \/ mu = 2.
Proof.
  intros [v [[k [Hk Hv]] He]].
  assert (G : forall f, rsum 6 f = f 0%nat + f 1%nat + f 2%nat + f 3%nat + f 4%nat + f 5%nat)
    by (intros f; rewrite !rsum_S, rsum_0; lra).
  assert (H0 := He 0%nat ltac:(lia)). assert (H1 := He 1%nat ltac:(lia)). assert (H2 := He 2%nat ltac:(lia)).
  assert (H3 := He 3%nat ltac:(lia)). assert (H4 := He 4%nat ltac:(lia)). assert (H5 := He 5%nat ltac:(lia)).
  rewrite G in H0, H1, H2, H3, H4, H5. unfold walk_laplacian in H0, H1, H2, H3, H4, H5.
  cbn in H0, H1, H2, H3, H4, H5. clear He G.
  set (a := v 0%nat) in *. set (b := v 1%nat) in *. set (c := v 2%nat) in *.
  set (d := v 3%nat) in *. set (e := v 4%nat) in *. set (f := v 5%nat) in *.
  assert (Es : mu * (a + b + c + d + e + f) = 0) by lra.
  apply Rmult_integral in Es. destruct Es as [Es|Es]; [tauto|].
  destruct (Req_dec mu (1 / 2)) as [|N1]; [tauto|]. destruct (Req_dec mu (3 / 2)) as [|N2]; [tauto|].
  destruct (Req_dec mu 2) as [|N3]; [tauto|]. exfalso. apply Hv.
  (* sums of opposite nodes vanish *)
  assert (Z : forall x y, x <> 0 -> x * y = 0 -> y = 0) by (intros x y Hx Hxy; apply Rmult_integral in Hxy; tauto).
  assert (S0 : a + d = 0) by (apply (Z (mu - 3 / 2)); lra).
  assert (S1 : b + e = 0) by (apply (Z (mu - 3 / 2)); lra).
  assert (S2 : c + f = 0) by (apply (Z (mu - 3 / 2)); lra).
  assert (D0 : a + b = 0) by (apply (Z (mu - 1 / 2)); lra).
  assert (D1 : b + c = 0) by (apply (Z (mu - 1 / 2)); lra).
  assert (D2 : a = 0) by (apply (Z (mu - 2)); lra).
  unfold a, b, c, d, e, f in *. do 6 (destruct k as [|k]; [lra|]). lia.
Qed.
Example C150_gap_example : spectral_gap 6 (walk_laplacian 6 ring6) (1 / 2) /\
  find_spectral_gap 6 (walk_laplacian 6 ring6) (1 / 2).
Proof.
  assert (Hu := ring6_undirected). assert (Hc := ring6_connected). assert (Hr := ring6_regular).
  assert (F : find_spectral_gap 6 (walk_laplacian 6 ring6) (1 / 2)).
  { split; [apply eig_up; [lia|exact Hu|exact Hc|exact Hr|exact ring6_half|lra]|]. intros mu Hmu.
    rewrite (Rabs_pos_eq (1 / 2)) by lra.
    destruct (eig_down 6 ring6 ltac:(lia) Hu Hc Hr mu Hmu) as [->|[He Hp]]; [rewrite Rabs_left; lra|].
    rewrite Rabs_pos_eq by lra. destruct (ring6_eigenvalues mu He) as [E|[E|[E|E]]]; lra. }
  split; [|exact F]. apply C150_gap_partial; try assumption; [lia|].
  exists (1 / 2). split; [exact ring6_half|lra].
Qed.

Print Assumptions C150_symmetric_iff_regular.
Print Assumptions C150_eigenvalues.
Print Assumptions C150_gap_partial.
Print Assumptions C150_wrong_above_one.
Print Assumptions C150_gap_refuted.
