(** SparseStochMat and its kernels: properties C21-C27, C58-C60. *)
From Verif Require Import Base SparseModel SparseSpec SparseProofs SparseOpsProofs SparseConvProofs.

(** Two matrices used in the examples: A has rows 0, 2 stored and 1 elsewhere on the
    diagonal; B has rows 2, 3 stored (not in column order) and 1/2 elsewhere. *)
Definition exA : ssm := mkS 4 [0; 2]
  (mkCsr [qf 1 3; qf 2 3; qz 1] [0; 1; 0] [0; 2; 3]) (qz 1).
Definition exB : ssm := mkS 4 [2; 3]
  (mkCsr [qf 1 4; qf 3 4; qz 2] [1; 0; 1] [0; 2; 3]) (qf 1 2).
Ltac csr_ok_tac := apply csr_okb_sound; vm_compute; reflexivity.
Example exA_ok : ssm_ok exA.
Proof. apply ssm_okb_sound. vm_compute. reflexivity. Qed.
Example exB_ok : ssm_ok exB.
Proof. apply ssm_okb_sound. vm_compute. reflexivity. Qed.
(** the full matrix of the example, computed *)
Example exA_full : map (fun i => map (full exA i) (seq 0 4)) (seq 0 4) =
  [[qf 1 3; qz 0; qf 2 3; qz 0]; [qz 0; qz 1; qz 0; qz 0]; [qz 1; qz 0; qz 0; qz 0]; [qz 0; qz 0; qz 0; qz 1]].
Proof. vm_compute. reflexivity. Qed.

(** * C21: arithmetic agrees with the represented matrices *)
Theorem C21_arithmetic : forall sp A B x d,
  scipy_ok sp -> ssm_ok A -> ssm_ok B -> s_size B = s_size A ->
  let n := s_size A in
  represents (ssm_add A B) n (fun i j => (full A i j + full B i j)%num) /\
  represents (ssm_sub A B) n (fun i j => (full A i j - full B i j)%num) /\
  represents (ssm_mul A x) n (fun i j => (full A i j * x)%num) /\
  represents (ssm_add_diag sp A d) n (fun i j => (full A i j + if i =? j then d else 0)%num) /\
  represents (ssm_sub_diag sp A d) n (fun i j => (full A i j - if i =? j then d else 0)%num) /\
  represents (ssm_transpose sp A) n (fun i j => full A j i).
Proof.
  intros sp A B x d Hsp HA HB Hsz n.
  assert (FA : forall i j, i < n -> j < n -> full A i j = rep A i j) by (intros; now apply full_rep).
  assert (FB : forall i j, i < n -> j < n -> full B i j = rep B i j).
  { intros. apply full_rep; [exact HB|rewrite Hsz; assumption|rewrite Hsz; assumption]. }
  split; [|split; [|split; [|split; [|split]]]].
  - destruct (op_spec 1%num A B HA HB Hsz) as (C & E & Hok & Hs & _ & _ & Hv).
    apply (represents_rep _ C); [exact E|exact Hok|exact Hs|]. intros i j Hi Hj. rewrite Hv, FA, FB by assumption. ring.
  - destruct (op_spec (- (1))%num A B HA HB Hsz) as (C & E & Hok & Hs & _ & _ & Hv).
    apply (represents_rep _ C); [exact E|exact Hok|exact Hs|]. intros i j Hi Hj. rewrite Hv, FA, FB by assumption. ring.
  - destruct (mul_spec A x HA) as (C & E & Hok & Hs & _ & _ & Hv).
    apply (represents_rep _ C); [exact E|exact Hok|exact Hs|]. intros i j Hi Hj. now rewrite Hv, FA by assumption.
  - destruct (add_diag_spec sp A d Hsp HA) as (C & E & Hok & Hs & Hv).
    apply (represents_rep _ C); [exact E|exact Hok|exact Hs|]. intros i j Hi Hj. now rewrite Hv, FA by assumption.
  - destruct (sub_diag_spec sp A d Hsp HA) as (C & E & Hok & Hs & _ & _ & Hv).
    apply (represents_rep _ C); [exact E|exact Hok|exact Hs|]. intros i j Hi Hj. now rewrite Hv, FA by assumption.
  - destruct (transpose_spec sp A Hsp HA) as (C & E & Hok & Hs & Hv).
    apply (represents_rep _ C); [exact E|exact Hok|exact Hs|]. intros i j Hi Hj. now rewrite Hv, FA by assumption.
Qed.
Example C21_applies : represents (ssm_add exA exB) 4 (fun i j => (full exA i j + full exB i j)%num) /\
  option_map s_nz (ssm_add exA exB) = Some [0; 2; 3].
Proof.
  split; [|reflexivity].
  exact (proj1 (C21_arithmetic dense_scipy exA exB 0%num 0%num dense_scipy_ok exA_ok exB_ok eq_refl)).
Qed.

(** * C22: the product *)
Theorem C22_product : forall sp A B,
  scipy_ok sp -> ssm_ok A -> ssm_ok B -> s_size B = s_size A ->
  let n := s_size A in
  represents (ssm_matmul sp A B) n (fun i j => sumN n (fun k => (full A i k * full B k j)%num)).
Proof.
  intros sp A B Hsp HA HB Hsz n.
  destruct (matmul_spec sp A B Hsp HA HB Hsz) as (C & E & Hok & Hs & Hv).
  apply (represents_rep _ C); [exact E|exact Hok|exact Hs|]. intros i j Hi Hj. rewrite (Hv i j Hi Hj).
  apply sumN_ext. intros k Hk. rewrite full_rep by assumption.
  rewrite full_rep; [reflexivity|exact HB|rewrite Hsz; assumption|rewrite Hsz; assumption].
Qed.
Example C22_applies : represents (ssm_matmul dense_scipy exA exB) 4
    (fun i j => sumN 4 (fun k => (full exA i k * full exB k j)%num)) /\
  (exists C, ssm_matmul dense_scipy exA exB = Some C /\ full C 0 3 = qf 1 6).
Proof.
  split; [exact (C22_product dense_scipy exA exB dense_scipy_ok exA_ok exB_ok eq_refl)|].
  eexists. split; [vm_compute; reflexivity|]. vm_compute. reflexivity.
Qed.

(** * C23: full to SparseStochMat and back *)
(** given stored indices are sorted, in range, and cover everything not [d] times identity *)
Definition covers (n : nat) (T : csr) (nz : option (list nat)) (d : num) : Prop :=
  match nz with
  | None => True
  | Some l => StronglySorted lt l /\ (forall i, In i l -> i < n) /\ diagonal_outside n T l d
  end.
(** for every non-zero diag_val, in particular the default 1 *)
Theorem C23_from_full : forall n T nz d, d <> 0%num -> csr_ok n T -> covers n T nz d ->
  represents (from_full T nz d) n (value T).
Proof.
  intros n T nz d Hd HT Hc. unfold from_full. rewrite (proj1 HT). replace (S n - 1) with n by lia.
  assert (H : exists A, from_full_kernel (match nz with Some l => l | None => nz_rowcols_of n T d end) T d = Some A /\ ssm_ok A /\
            s_size A = n /\ (forall i j, i < n -> j < n -> rep A i j = value T i j)).
  { destruct nz as [l|].
    - destruct Hc as (Hs & Hb & Ho). destruct (from_full_kernel_spec n T l d HT Hd Hs Hb Ho) as (A & ? & ? & ? & _ & _ & ?). exists A. auto.
    - destruct (nz_rowcols_spec n T d) as (Hs & Hb & Ho).
      destruct (from_full_kernel_spec n T _ d HT Hd Hs Hb Ho) as (A & ? & ? & ? & _ & _ & ?). exists A. auto. }
  destruct H as (A & E & Hok & Hs & Hv). now apply (represents_rep _ A).
Qed.
Theorem C23_there_and_back : forall A d, ssm_ok A -> d <> 0%num ->
  represents (obind (to_full_mat A) (fun F => from_full F None d)) (s_size A) (full A).
Proof.
  intros A d HA Hd. destruct (to_full_spec A HA) as (F & EF & HF & Hv). rewrite EF. cbn [obind].
  destruct (C23_from_full (s_size A) F None d Hd HF I) as (C & E & Hok & Hs & (G & EG & HG & HvG)).
  exists C. split; [exact E|]. split; [exact Hok|]. split; [exact Hs|]. exists G. split; [exact EG|]. split; [exact HG|].
  intros i j Hi Hj. rewrite HvG by assumption. rewrite Hs in Hi, Hj. unfold full. now rewrite EF.
Qed.
Example C23_applies : exists F, to_full_mat exB = Some F /\ covers 4 F (Some [2; 3]) (qf 1 2) /\
  option_map s_nz (from_full F (Some [2; 3]) (qf 1 2)) = Some [2; 3] /\
  option_map s_nz (from_full F None (qz 1)) = Some [0; 1; 2; 3].
Proof.
  destruct (to_full_spec exB exB_ok) as (F & EF & HF & Hv). exists F. split; [exact EF|]. split.
  - split; [repeat constructor|]. split; [intros i [<-|[<-|[]]]; lia|].
    intros i j Hi Hj Hn. rewrite (Hv i j Hi Hj). unfold rep.
    destruct (pos i (s_nz exB)) eqn:Ei, (pos j (s_nz exB)) eqn:Ej; try reflexivity.
    exfalso. apply Hn. split; apply pos_In; eauto.
  - vm_compute in EF. injection EF as <-. split; vm_compute; reflexivity.
Qed.

(** * C60: conversion with any diag_val.  It fails for diag_val = 0: the buffer is sized on
    the assumption that every row outside nz_rowcols stores one element. *)
Definition C60_statement : Prop := forall n T nz d, csr_ok n T -> covers n T nz d ->
  represents (from_full T nz d) n (value T).
Definition ex_zero_rows : csr := mkCsr [qz 1] [1] [0; 1; 1; 1].
Theorem C60_from_full_zero_diag_refuted : ~ C60_statement.
Proof.
  intros H. destruct (H 3 ex_zero_rows None 0%num) as (C & E & _).
  - csr_ok_tac.
  - exact I.
  - vm_compute in E. discriminate.
Qed.
Theorem C60_from_full_partial : forall n T nz d, d <> 0%num -> csr_ok n T -> covers n T nz d ->
  represents (from_full T nz d) n (value T).
Proof. exact C23_from_full. Qed.

(** * C24: row normalisation *)
Theorem C24_row_normalise : forall n M row_sum,
  csr_ok n M -> (forall i, i < n -> row_sum i <> 0%num) ->
  let M' := csr_row_normalise M n row_sum in
  csr_ok n M' /\
  (forall i, i < n -> sumN n (value M i) <> 0%num -> sumN n (value M' i) = row_sum i) /\
  (forall i, i < n -> sumN n (value M i) = 0%num -> row_entries M' i = row_entries M i) /\
  (forall i j, i < n -> j < n -> sumN n (value M i) <> 0%num ->
     (value M' i j * sumN n (value M i) = value M i j * row_sum i)%num) /\
  csr_row_normalise M' n row_sum = M'.
Proof.
  intros n M rs HM Hr M'. destruct (normalise_rows n M rs HM) as [HM' _]. fold M' in HM'.
  split; [exact HM'|]. split; [|split; [|split]].
  - intros i Hi Hs. rewrite <- (stored_sum_value n M' i HM' Hi). apply scaled_sum; [exact HM|exact Hi|].
    now rewrite (stored_sum_value n M i HM Hi).
  - intros i Hi Hs. apply zero_row_untouched; [exact HM|exact Hi|]. now rewrite (stored_sum_value n M i HM Hi).
  - intros i j Hi Hj Hs. unfold M'. rewrite (scaled_value n M rs i j HM Hi (Hr i Hi)), (stored_sum_value n M i HM Hi).
    destruct (qeqb_spec (sumN n (value M i)) 0%num); [contradiction|]. field. exact Hs.
  - apply normalise_idem; assumption.
Qed.
(** with row_sum = 0 the mean of the stored elements is removed *)
Theorem C24_row_normalise_zero : forall n M row_sum i, csr_ok n M -> i < n ->
  row_sum i = 0%num -> sumN n (value (csr_row_normalise M n row_sum) i) = 0%num.
Proof.
  intros n M rs i HM Hi Hr. destruct (normalise_rows n M rs HM) as [HM' _].
  rewrite <- (stored_sum_value n _ i HM' Hi).
  destruct (Qc_eq_dec (stored_sum M i) 0%num) as [Hz|Hz].
  - unfold stored_sum. rewrite (zero_row_untouched n M rs i HM Hi Hz). exact Hz.
  - rewrite (scaled_sum n M rs i HM Hi Hz). exact Hr.
Qed.
Definition exM : csr := mkCsr [qz 1; qz 3; qz 2; qz (-2)] [0; 2; 0; 1] [0; 2; 2; 4].
Example C24_applies : csr_ok 3 exM /\ (forall i, i < 3 -> qz 1 <> 0%num) /\
  c_data (csr_row_normalise exM 3 (fun _ => qz 1)) = [qf 1 4; qf 3 4; qz 2; qz (-2)].
Proof. split; [csr_ok_tac|]. split; [discriminate|]. vm_compute. reflexivity. Qed.

(** * C25: the stored indices may be given in any order — false, they are sorted on
    construction while the small matrix is not permuted *)
Definition C25_statement : Prop := forall n M nz d,
  NoDup nz -> (forall i, In i nz -> i < n) -> csr_ok (length nz) M ->
  exists A, ssm_init n M nz d = Some A /\ placed n M nz d (full A).
Theorem C25_index_order_refuted : ~ C25_statement.
Proof.
  intros H. destruct (H 2 (mkCsr [qz 5] [1] [0; 1; 1]) [1; 0] (qz 1)) as (A & E & Hp & _).
  - repeat constructor; simpl; intuition lia.
  - intros i [<-|[<-|[]]]; lia.
  - csr_ok_tac.
  - injection E as <-. specialize (Hp 0 1 ltac:(simpl; lia) ltac:(simpl; lia)). vm_compute in Hp. discriminate.
Qed.
(** holds for sorted indices, which is how every caller in the package builds them *)
Theorem C25_index_order_partial : forall n M nz d,
  StronglySorted lt nz -> (forall i, In i nz -> i < n) -> csr_ok (length nz) M ->
  exists A, ssm_init n M nz d = Some A /\ placed n M nz d (full A).
Proof.
  intros n M nz d Hs Hb HM. destruct (ssm_init_ok n M nz d HM Hs Hb) as [E Hok].
  eexists. split; [exact E|]. assert (Hnd := sorted_NoDup _ Hs). split.
  - intros a b Ha Hb'. rewrite full_rep; [|exact Hok|apply Hb, nth_In, Ha|apply Hb, nth_In, Hb'].
    unfold rep. cbn [s_nz s_small s_diag]. now rewrite !pos_of_nth.
  - intros i j Hi Hj Hn. rewrite full_rep by assumption. unfold rep. cbn [s_nz s_small s_diag].
    destruct (pos i nz) eqn:Ei, (pos j nz) eqn:Ej; try reflexivity.
    exfalso. apply Hn. split; apply pos_In; eauto.
Qed.
Example C25_applies : StronglySorted lt [0; 2] /\ csr_ok 2 (s_small exA).
Proof. split; [repeat constructor|]. csr_ok_tac. Qed.

(** * C26: set_to_zeroes — the default compares signed values, so negative entries of any
    size disappear *)
Definition negligible_removed (M M' : csr) (n : nat) (bound : num) : Prop :=
  forall i j, i < n -> j < n ->
    ((qabs (value M i j) <= bound)%num -> value M' i j = 0%num) /\
    (~ (qabs (value M i j) <= bound)%num -> value M' i j = value M i j).
Definition C26_statement : Prop := forall n M tol m use_abs,
  csr_ok n M -> no_repetition M -> (0 <= tol)%num -> (tol < 1)%num -> largest M m ->
  negligible_removed M (set_to_zeroes M tol true use_abs) n (tol * m)%num.
Theorem C26_set_to_zeroes_refuted : ~ C26_statement.
Proof.
  intros H. set (M := mkCsr [qz 1; qz (-1)] [0; 1] [0; 1; 2]).
  destruct (H 2 M (qf 1 10) (qz 1) false) with (i := 1) (j := 1) as [_ H2]; try lia.
  - csr_ok_tac.
  - apply (no_repetition_check 2); vm_compute; reflexivity.
  - qcompute.
  - qcompute.
  - split; [intros v [<-|[<-|[]]]; qcompute|]. exists (qz 1). split; [now left|]. apply Qc_is_canon. reflexivity.
  - specialize (H2 ltac:(vm_compute; intros Hx; apply Hx; reflexivity)). vm_compute in H2. discriminate.
Qed.
(** holds with use_absolute_value, or when no stored value is negative *)
Theorem C26_set_to_zeroes_partial : forall n M tol m relative use_abs,
  csr_ok n M -> no_repetition M -> (0 <= tol)%num -> (c_data M <> [] -> largest M m) ->
  use_abs = true \/ (forall v, In v (c_data M) -> (0 <= v)%num) ->
  csr_ok n (set_to_zeroes M tol relative use_abs) /\
  negligible_removed M (set_to_zeroes M tol relative use_abs) n (if relative then tol * m else tol)%num.
Proof.
  intros n M tol m relative use_abs HM Hn Ht Hm Ha.
  destruct (set_to_zeroes_spec n M tol relative use_abs m HM Hn Ht Ha Hm) as [Hok Hv].
  split; [exact Hok|]. intros i j Hi Hj. rewrite (Hv i j Hi Hj).
  destruct (qleb_spec (qabs (value M i j)) (if relative then tol * m else tol)%num); split; intros; tauto.
Qed.
Example C26_applies : csr_ok 3 exM /\ no_repetition exM /\ largest exM (qz 3) /\
  c_data (set_to_zeroes exM (qf 1 2) true true) = [qz 3; qz 2; qz (-2)].
Proof.
  split; [csr_ok_tac|]. split.
  { apply (no_repetition_check 3); vm_compute; reflexivity. }
  split; [|vm_compute; reflexivity].
  split; [intros v Hv; cbn in Hv; repeat (destruct Hv as [<-|Hv]; [qcompute|]); destruct Hv|].
  exists (qz 3). split; [cbn; auto|]. apply Qc_is_canon. reflexivity.
Qed.

(** * C27: the accumulator *)
Theorem C27_accumulator : forall size h,
  (forall r l, In (r, l) h -> forall e, In e l -> fst e < size) ->
  StronglySorted lt (map fst h) ->
  Forall2 outs_exact (map snd h) (snd (spa_history (spa_new size) h)).
Proof. intros size h H1 H2. apply (spa_history_spec size); [exact H1|exact H2|]. intros. apply spa_new_below. Qed.
Example C27_applies : snd (spa_history (spa_new 3) [(0, [(2, qz 1); (0, qz 2); (2, qz 3)]); (5, [(2, qz 7)])]) =
  [[(2, qz 4); (0, qz 2)]; [(2, qz 7)]].
Proof. vm_compute. reflexivity. Qed.

(** * C58: SparseStochMat.inplace_row_normalize obeys the same rules on the represented
    matrix — false when diag_val = 0: those rows sum to zero and are not left alone *)
Definition normalised (n : nat) (f g : nat -> nat -> num) (r : num) : Prop :=
  forall i, i < n ->
    (sumN n (f i) <> 0%num -> sumN n (g i) = r /\
        forall j, j < n -> (g i j * sumN n (f i) = f i j * r)%num) /\
    (sumN n (f i) = 0%num -> forall j, j < n -> g i j = f i j).
Definition C58_statement : Prop := forall A r, ssm_ok A -> r <> 0%num ->
  normalised (s_size A) (full A) (full (ssm_row_normalise A r)) r.
Theorem C58_row_normalise_refuted : ~ C58_statement.
Proof.
  intros H. set (A := mkS 2 [0] (mkCsr [qz 2] [0] [0; 1]) 0%num).
  assert (HA : ssm_ok A).
  { apply ssm_okb_sound. vm_compute. reflexivity. }
  destruct (H A (qz 1) HA ltac:(discriminate) 1 ltac:(cbn; lia)) as [_ Hz].
  specialize (Hz ltac:(vm_compute; apply Qc_is_canon; reflexivity) 1 ltac:(cbn; lia)).
  vm_compute in Hz. discriminate.
Qed.
Theorem C58_row_normalise_partial : forall A r, ssm_ok A -> r <> 0%num -> s_diag A <> 0%num ->
  ssm_ok (ssm_row_normalise A r) /\
  normalised (s_size A) (full A) (full (ssm_row_normalise A r)) r.
Proof.
  intros A r HA Hr Hd. destruct (ssm_row_normalise_spec A r HA Hr Hd) as [Hok Hv].
  split; [exact Hok|]. set (n := s_size A) in *.
  assert (FA : forall i j, i < n -> j < n -> full A i j = rep A i j) by (intros; now apply full_rep).
  assert (FB : forall i j, i < n -> j < n -> full (ssm_row_normalise A r) i j = rep (ssm_row_normalise A r) i j)
    by (intros; now apply full_rep).
  assert (HS : forall i, i < n -> sumN n (full A i) = sumN n (rep A i)) by (intros i Hi; apply sumN_ext; auto).
  intros i Hi. rewrite (HS i Hi). split.
  - intros Hs. split.
    + rewrite (sumN_ext n (full (ssm_row_normalise A r) i) (rep (ssm_row_normalise A r) i)) by auto.
      now apply ssm_normalise_sum.
    + intros j Hj. rewrite FA, FB, (Hv i j Hi Hj) by assumption. cbn zeta.
      destruct (qeqb_spec (sumN n (rep A i)) 0%num); [contradiction|]. field. exact Hs.
  - intros Hs j Hj. rewrite FA, FB, (Hv i j Hi Hj) by assumption. cbn zeta.
    destruct (qeqb_spec (sumN n (rep A i)) 0%num); [reflexivity|contradiction].
Qed.
Example C58_applies : ssm_ok exB /\ s_diag exB <> 0%num.
Proof. split; [exact exB_ok|discriminate]. Qed.

(** * C59: the pure Python fallback gives the same results as the compiled kernels — false
    for row_sum = 0 and for stored zeros outside nz_rowcols *)
Definition C59_statement : Prop :=
  (forall n M r, csr_ok n M -> subst_row_normalise M n r = csr_row_normalise M n (fun _ => r)) /\
  (forall n nz T d, csr_ok n T -> subst_from_full_kernel nz T d = from_full_kernel nz T d).
Theorem C59_fallback_normalise_refuted : ~ (forall n M r, csr_ok n M ->
  subst_row_normalise M n r = csr_row_normalise M n (fun _ => r)).
Proof.
  intros H. specialize (H 2 (mkCsr [qz 1; qz 3] [0; 1] [0; 2; 2]) 0%num ltac:(csr_ok_tac)).
  vm_compute in H. discriminate.
Qed.
Theorem C59_fallback_from_full_refuted : ~ (forall n nz T d, csr_ok n T ->
  subst_from_full_kernel nz T d = from_full_kernel nz T d).
Proof.
  intros H. specialize (H 2 [0] (mkCsr [qz 3; qz 0; qz 1] [0; 1; 1] [0; 2; 3]) (qz 1) ltac:(csr_ok_tac)).
  vm_compute in H. discriminate.
Qed.
Theorem C59_fallback_refuted : ~ C59_statement.
Proof. intros [H _]. exact (C59_fallback_normalise_refuted H). Qed.
Theorem C59_fallback_partial :
  (forall n M r, csr_ok n M -> r <> 0%num -> subst_row_normalise M n r = csr_row_normalise M n (fun _ => r)) /\
  (forall nz T d, (forall i e, In i nz -> In e (row_entries T i) -> In (fst e) nz) ->
     subst_from_full_kernel nz T d = from_full_kernel nz T d).
Proof. split; [exact subst_normalise_rows|exact subst_from_full_agrees]. Qed.

Print Assumptions C21_arithmetic.
Print Assumptions C22_product.
Print Assumptions C23_from_full.
Print Assumptions C23_there_and_back.
Print Assumptions C24_row_normalise.
Print Assumptions C25_index_order_partial.
Print Assumptions C26_set_to_zeroes_partial.
Print Assumptions C27_accumulator.
Print Assumptions C58_row_normalise_partial.
Print Assumptions C59_fallback_partial.
Print Assumptions C60_from_full_partial.
