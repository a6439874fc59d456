(** C138-C149: matrices given by the rows and columns that are used, and small functions on
    rows, columns, assignments and subsets. *)
From Verif Require Import Base LouvainModel SparseModel SparseSpec SparseProofs SparseOpsProofs SparseConvProofs SparseProps
  EventsModel EventsSpec TransModel TransSpec MatProofs TransProofs ExpmProofs TransProps SmallModel SmallSpec Components SmallProofs RowProofs.

Ltac compute_all := vm_compute; repeat first [reflexivity | apply Qc_is_canon; reflexivity | apply (f_equal2 (@cons num)) | apply (f_equal (@Some (list num)))].

(** * C138: sparse_stationary_trans *)
Theorem C138_sparse_stationary : forall comps n T n_comp lab, components_ok comps -> csr_ok n T -> no_repetition T -> component_labels n (value T) n_comp lab ->
  represents (sparse_stationary comps T) n (stationary_at n (value T) lab).
Proof.
  intros comps n T nc lab HC HT HR HL. destruct (sparse_stationary_spec comps n T nc lab HC HT HL) as (C & -> & _ & _ & _ & H). revert H. apply represents_ext.
  intros i j Hi Hj. now apply stationary_at_value.
Qed.
Definition T138 : csr := csr_of_dense 4 (walk 4 path3).
Example C138_applies : components_ok joined /\ csr_ok 4 T138 /\ no_repetition T138 /\ component_labels 4 (value T138) 2 lab44 /\
  option_map s_nz (sparse_stationary joined T138) = Some [0; 1; 2] /\ stationary_at 4 (value T138) lab44 0 1 = qf 1 2 /\ stationary_at 4 (value T138) lab44 3 3 = 1%num.
Proof.
  split; [exact joined_ok|]. destruct C44_applies as (H1 & H2 & _ & _ & H3 & _). split; [exact H1|]. split; [exact H2|]. split; [exact H3|]. split; [vm_compute; reflexivity|]. split; vm_compute; now apply Qc_is_canon.
Qed.

(** * C139: sparse_lin_approx *)
(** the stationary matrix is computed, or given as a csr matrix *)
Definition given_stationary (n : nat) (T : csr) (lab : nat -> nat) (Pi : pi_arg) : Prop :=
  match Pi with
  | PiNone => True
  | PiCsr P => csr_ok n P /\ eqm n (value P) (stationary_at n (value T) lab)
  | PiSparse _ => False
  end.
Theorem C139_sparse_lin_approx : forall comps n T n_comp lab t Pi t_s nz, components_ok comps -> csr_ok n T -> no_repetition T -> (forall i, i < n -> sumN n (value T i) = 1%num) ->
  component_labels n (value T) n_comp lab -> given_stationary n T lab Pi -> covers n T nz 1%num ->
  ((0 <= t)%num -> represents (sparse_lin_approx comps T t Pi t_s nz) n (interpolated t t_s (value T) (stationary_at n (value T) lab))) /\
  ((t < 0)%num -> sparse_lin_approx comps T t Pi t_s nz = None).
Proof.
  intros comps n T nc lab t Pi t_s nz HC HT HR Hsum HL HPi Hcov.
  assert (HZ : exists l, StronglySorted lt l /\ (forall i, In i l -> i < n) /\ diagonal_outside n T l 1%num /\ from_full T nz 1%num = from_full_kernel l T 1%num /\
    forall P, csr_ok n P -> eqm n (value P) (value (stationary_transition n lab T)) -> from_full P nz 1%num = from_full_kernel l P 1%num).
  { destruct nz as [l|].
    - destruct Hcov as (H1 & H2 & H3). exists l. repeat (split; [assumption|]). split; reflexivity.
    - destruct (nz_rowcols_spec n T 1%num) as (H1 & H2 & H3). exists (nz_rowcols_of n T 1%num). split; [exact H1|]. split; [exact H2|]. split; [exact H3|]. split; [now apply from_full_None|].
      intros P HP HE. rewrite (from_full_None n P HP). now rewrite (stationary_same_nz n T nc lab P HT Hsum HL HE). }
  destruct HZ as (l & Hs & Hb & Ho & EF & EP). destruct (part_defined n T l HT Hs Hb Ho) as (A & EA). destruct (part_ok n T l A HT Hs Hb Ho EA) as (Hok & Hsz & Hnz & Hd & HM & Hv).
  unfold sparse_lin_approx. rewrite EF, EA. cbn [obind]. rewrite Hnz, Hsz. split.
  - intros Ht. set (P := value (stationary_transition n lab T)).
    assert (HP : exists Ps, (match Pi with PiNone => Some (stationary_of comps (length l) (s_small A)) | PiSparse P => Some (s_small P) | PiCsr P => option_map s_small (from_full P nz 1%num) end) = Some Ps /\
      csr_ok (length l) Ps /\ forall a b, a < length l -> b < length l -> value Ps a b = P (nth a l 0) (nth b l 0)).
    { destruct Pi as [|?|Q].
      - eexists. split; [reflexivity|]. split; [apply stationary_ok|]. intros a b Ha Hb'. apply (stationary_inside n T l A HT Hs Hb Ho EA nc lab _ _ HL (HC _ _) a b Ha Hb').
      - destruct HPi.
      - destruct HPi as [HQ HE]. assert (HE' : eqm n (value Q) P) by (intros i j Hi Hj; rewrite HE by assumption; symmetry; now apply stationary_at_value). rewrite (EP Q HQ HE').
        assert (HoQ : diagonal_outside n Q l 1%num) by (intros i j Hi Hj Hn; rewrite HE' by assumption; now apply (stationary_outside n T l A HT Ho nc lab HL)).
        destruct (part_defined n Q l HQ Hs Hb HoQ) as (B & EB). destruct (part_ok n Q l B HQ Hs Hb HoQ EB) as (_ & _ & _ & _ & HB & HvB). rewrite EB. exists (s_small B). split; [reflexivity|]. split; [exact HB|].
        intros a b Ha Hb'. rewrite HvB by assumption. apply HE'; now apply Hb, nth_In. }
    destruct HP as (Ps & EPs & HPs & HvP). rewrite EPs. cbn [obind]. destruct (lin_approx_defined (value T) t P t_s Ht) as (B & EB).
    destruct (lin_approx_csr_spec (length l) (s_small A) t Ps t_s HM HPs Ht) as (M & B' & EM & EB' & HM' & HB'). rewrite EM. cbn [obind].
    apply (represents_ext _ n B); [intros i j Hi Hj; rewrite (interpolated_value _ _ _ _ _ i j EB); unfold interpolated, P; now rewrite (stationary_at_value n T lab i j HT HR Hi Hj)|].
    apply placed_represents; [exact HM'|exact Hs|exact Hb| |].
    + intros a b Ha Hb'. rewrite HB' by assumption. apply (lin_approx_entry _ _ _ _ _ _ _ _ _ _ _ _ EB' EB); [now apply Hv|now apply HvP|].
      destruct (Nat.eqb_spec a b) as [->|Hne]; [now rewrite Nat.eqb_refl|]. symmetry. apply Nat.eqb_neq. intros E. apply Hne. apply (proj1 (NoDup_nth l 0)); [now apply sorted_NoDup|exact Ha|exact Hb'|exact E].
    + intros i j Hi Hj Hn. apply (lin_approx_diag _ _ _ _ _ _ _ Ht EB); [now apply Ho|]. now apply (stationary_outside n T l A HT Ho nc lab HL).
  - intros Ht. assert (EN : forall Ps, lin_approx_csr (length l) (s_small A) t Ps t_s = None) by (intros Ps; unfold lin_approx_csr; destruct (qltb_spec t 0%num); [reflexivity|contradiction]).
    destruct (match Pi with PiNone => _ | PiSparse P => _ | PiCsr P => _ end) as [Ps|]; [|reflexivity]. cbn [obind]. now rewrite EN.
Qed.
(** a stationary matrix made for other rows and columns is refused when it is needed, and is not
    needed up to time 1 *)
Theorem C139_other_size : forall comps n T t P t_s l k, csr_ok n T -> covers n T (Some l) 1%num -> csr_ok k (s_small P) -> k <> length l ->
  ((1 < t)%num -> sparse_lin_approx comps T t (PiSparse P) t_s (Some l) = None) /\
  ((t <= 1)%num -> sparse_lin_approx comps T t (PiSparse P) t_s (Some l) = sparse_lin_approx comps T t PiNone t_s (Some l)).
Proof.
  intros comps n T t P t_s l k HT (Hs & Hb & Ho) HP Hk. destruct (part_defined n T l HT Hs Hb Ho) as (A & EA). destruct (part_ok n T l A HT Hs Hb Ho EA) as (_ & _ & Hnz & _ & HM & _).
  assert (EF : from_full T (Some l) 1%num = Some A) by exact EA. unfold sparse_lin_approx. rewrite EF. cbn [obind]. rewrite Hnz. unfold lin_approx_csr.
  destruct (qltb_spec t 0%num) as [H0|H0]; [split; [intros H1; exfalso; revert H0 H1; qlra|reflexivity]|].
  destruct (qleb_spec t 1%num) as [H1|H1]; [split; [intros H2; exfalso; revert H1 H2; qlra|reflexivity]|]. split; [intros _|intros H2; contradiction].
  destruct (qltb t t_s); cbn [obind].
  - unfold csr_plus. cbn [csr_scale c_ptr]. rewrite (proj1 HP). destruct (Nat.eqb_spec (S k) (S (length l))) as [E|_]; [lia|]. rewrite andb_false_r. reflexivity.
  - unfold ssm_init. rewrite (proj1 HP). destruct (Nat.eqb_spec (S k) (S (length l))) as [E|_]; [lia|reflexivity].
Qed.
Example C139_other_size_applies : covers 4 T138 (Some [0; 1; 2]) 1%num /\ csr_ok 2 (csr_eye 2) /\
  sparse_lin_approx joined T138 (qn 2) (PiSparse (mkS 4 [0; 1] (csr_eye 2) 1%num)) (qn 10) (Some [0; 1; 2]) = None /\
  sparse_lin_approx joined T138 (qf 1 2) (PiSparse (mkS 4 [0; 1] (csr_eye 2) 1%num)) (qn 10) (Some [0; 1; 2]) <> None.
Proof.
  split.
  - split; [repeat constructor|]. split; [intros i Hi; cbn in Hi; lia|]. intros i j Hi Hj Hn.
    do 4 (destruct i as [|i]; [do 4 (destruct j as [|j]; [first [exfalso; apply Hn; cbn; tauto | vm_compute; now apply Qc_is_canon]|]); lia|]). lia.
  - split; [apply csr_eye_spec|]. split; [vm_compute; reflexivity|vm_compute; discriminate].
Qed.
(** one step of a temporal network *)
Theorem C139_network : forall comps n L n_comp lab t t_s, components_ok comps -> (0 <= t)%num -> component_labels n (mminus ident L) n_comp lab ->
  represents (lin_step_sparse comps n L t t_s) n (interpolated t t_s (mminus ident L) (stationary_at n (mminus ident L) lab)).
Proof.
  intros comps n L nc lab t t_s HC Ht HL. destruct (csr_of_dense_spec n (mminus ident L)) as (HT & HV & HR). set (T := csr_of_dense n (mminus ident L)) in *.
  assert (HLT : component_labels n (value T) nc lab).
  { split; [apply HL|]. intros i j Hi Hj. rewrite (proj2 HL i j Hi Hj). split; intros H; (induction H as [i' Hi'|i' j' k' H IH Hk HRel]; [now apply linked_refl|]);
      pose proof (linked_in _ _ _ _ H) as [Hi'' Hj']; (apply (linked_step _ _ _ _ _ (IH Hi'' Hj')); [exact Hk|]); [rewrite !HV by assumption; exact HRel|rewrite !HV in HRel by assumption; exact HRel]. }
  destruct (sparse_stationary_spec comps n T nc lab HC HT HLT) as (C & EC & Hnz & HCok & HCv & _). unfold lin_step_sparse. fold T. rewrite EC. cbn [obind]. unfold sparse_lin_approx, from_full. rewrite used_same_nz. fold T. rewrite <- Hnz.
  destruct (nz_rowcols_spec n T 1%num) as (Hs & Hb & Ho). rewrite <- Hnz in Hs, Hb, Ho. set (l := s_nz C) in *. destruct (part_defined n T l HT Hs Hb Ho) as (A & EA). destruct (part_ok n T l A HT Hs Hb Ho EA) as (Hok & Hsz & HnzA & Hd & HM & Hv).
  rewrite EA. cbn [obind]. rewrite HnzA, Hsz. destruct (lin_approx_defined (value T) t (value (stationary_transition n lab T)) t_s Ht) as (B & EB).
  destruct (lin_approx_csr_spec (length l) (s_small A) t (s_small C) t_s HM HCok Ht) as (M & B' & EM & EB' & HM' & HB'). rewrite EM. cbn [obind].
  apply (represents_ext _ n B).
  { intros i j Hi Hj. rewrite (interpolated_value _ _ _ _ _ i j EB). unfold interpolated. rewrite (stationary_at_value n T lab i j HT HR Hi Hj), (HV i j Hi Hj).
    assert (Enz : forall k, k < n -> row_nonzeros n (value T) k = row_nonzeros n (mminus ident L) k) by (intros k Hk; unfold row_nonzeros; f_equal; apply filter_ext_in; intros x Hx; apply in_seq in Hx; rewrite HV by lia; reflexivity).
    assert (ES : stationary_at n (value T) lab i j = stationary_at n (mminus ident L) lab i j).
    { unfold stationary_at. rewrite (Enz j Hj). destruct (_ =? _); [|reflexivity]. f_equal. apply sumN_ext. intros k Hk. now rewrite (Enz k Hk). } now rewrite ES. }
  apply placed_represents; [exact HM'|exact Hs|exact Hb| |].
  - intros a b Ha Hb'. rewrite HB' by assumption. apply (lin_approx_entry _ _ _ _ _ _ _ _ _ _ _ _ EB' EB); [now apply Hv|now apply HCv|].
    destruct (Nat.eqb_spec a b) as [->|Hne]; [now rewrite Nat.eqb_refl|]. symmetry. apply Nat.eqb_neq. intros E. apply Hne. apply (proj1 (NoDup_nth l 0)); [now apply sorted_NoDup|exact Ha|exact Hb'|exact E].
  - intros i j Hi Hj Hn. apply (lin_approx_diag _ _ _ _ _ _ _ Ht EB); [now apply Ho|]. now apply (stationary_outside n T l A HT Ho nc lab HLT).
Qed.
Example C139_applies : csr_ok 4 T138 /\ (forall i, i < 4 -> sumN 4 (value T138 i) = 1%num) /\ given_stationary 4 T138 lab44 (PiCsr (csr_of_dense 4 (stationary_at 4 (value T138) lab44))) /\
  covers 4 T138 (Some [0; 1; 2]) 1%num /\ interpolated (qz 2) (qz 10) (value T138) (stationary_at 4 (value T138) lab44) 0 1 = qf 17 18.
Proof.
  split; [apply C44_applies|]. split; [intros [|[|[|[|i]]]] Hi; try lia; vm_compute; now apply Qc_is_canon|]. split.
  - split; [apply csr_of_dense_spec|]. apply csr_of_dense_spec.
  - split; [|vm_compute; now apply Qc_is_canon]. split; [repeat constructor|]. split; [cbn; lia|].
    intros i j Hi Hj Hn. destruct i as [|[|[|[|i]]]], j as [|[|[|[|j]]]]; try lia; try (exfalso; apply Hn; cbn; tauto); vm_compute; now apply Qc_is_canon.
Qed.

(** * C140: sparse_outer *)
Definition C140_statement : Prop := forall n p triu, (forall e, In e p -> fst e < n) ->
  exists F, sparse_outer n p triu = Some F /\ csr_ok n F /\ forall i j, i < n -> j < n -> value F i j = outer_product p triu i j.
Theorem C140_outer_refuted : ~ C140_statement.
Proof. intros H. destruct (H 2 [(1, 1%num)] false ltac:(intros e [<-|[]]; cbn; lia)) as (F & E & _). discriminate E. Qed.
(** a zero vector raises as well, and entries stored twice give a wrong matrix *)
Theorem C140_zero_refuted : sparse_outer 2 [] true = None /\ sparse_outer 2 [] false = None /\
  exists F, sparse_outer 2 [(0, 1%num); (0, 1%num); (1, 1%num)] false = Some F /\ value F 0 0 <> outer_product [(0, 1%num); (0, 1%num); (1, 1%num)] false 0 0.
Proof. split; [reflexivity|]. split; [reflexivity|]. eexists. split; [vm_compute; reflexivity|]. intros E. apply (f_equal (fun v => qeqb v (qz 4))) in E. vm_compute in E. discriminate E. Qed.
(** missing: vectors without non-zero entries, with a single one when the whole product is asked
    for, and entries stored twice *)
Theorem C140_outer_partial : forall n p triu, (forall e, In e p -> fst e < n) -> NoDup (map fst p) -> 1 <= nonzero_entries p -> (triu = false -> 2 <= nonzero_entries p) ->
  exists F, sparse_outer n p triu = Some F /\ csr_ok n F /\ forall i j, i < n -> j < n -> value F i j = outer_product p triu i j.
Proof. intros n p triu Hb Hn H1 H2. now apply sparse_outer_spec. Qed.
Definition p140 : list (nat * num) := [(3, qz 2); (0, qz 5); (2, 0%num)].
Example C140_applies : (forall e, In e p140 -> fst e < 4) /\ NoDup (map fst p140) /\ 2 <= nonzero_entries p140 /\ sparse_outer 4 p140 true = Some (mkCsr [qz 25; qz 10; qz 4] [0; 3; 3] [0; 2; 2; 2; 3]).
Proof. split; [intros e [<-|[<-|[<-|[]]]]; cbn; lia|]. split; [repeat constructor; cbn; intuition lia|]. split; [vm_compute; lia|]. vm_compute. f_equal. Qed.

(** * C141: csc_row_normalize *)
Theorem C141_csc_row_normalise : forall n M, csr_ok n M ->
  let M' := csc_row_normalise M in
  csr_ok n M' /\
  (forall i, i < n -> sumN n (value M i) <> 0%num -> sumN n (value M' i) = 1%num) /\
  (forall i, i < n -> sumN n (value M i) = 0%num -> row_entries M' i = row_entries M i) /\
  (forall i j, i < n -> j < n -> sumN n (value M i) <> 0%num -> (value M' i j * sumN n (value M i) = value M i j)%num) /\
  M' = csr_row_normalise M n (fun _ => 1%num).
Proof.
  intros n M HM M'. unfold M'. rewrite (csc_normalise_same n M HM). destruct (C24_row_normalise n M (fun _ => 1%num) HM ltac:(discriminate)) as (H1 & H2 & H3 & H4 & _).
  split; [exact H1|]. split; [exact H2|]. split; [exact H3|]. split; [|reflexivity]. intros i j Hi Hj Hs. rewrite (H4 i j Hi Hj Hs). ring.
Qed.
Example C141_applies : csr_ok 3 exM /\ c_data (csc_row_normalise exM) = [qf 1 4; qf 3 4; qz 2; qz (-2)].
Proof. split; [csr_ok_tac|]. vm_compute. reflexivity. Qed.

(** * C142: numpy_rebuild_nnz_rowcol *)
Theorem C142_numpy_rebuild : forall m M zero, csr_ok m M -> NoDup zero -> (forall i, In i zero -> i < m + length zero) ->
  let n := m + length zero in
  exists F nz, numpy_rebuild M zero = Some (F, n) /\ csr_ok n F /\ StronglySorted lt nz /\ (forall i, In i nz <-> i < n /\ ~ In i zero) /\
    placed n M nz 1%num (value F) /\ rebuild M nz n 1%num = Some F.
Proof.
  intros m M zero HM Hn Hb n. destruct (numpy_rebuild_spec m M zero HM Hn Hb) as (F & E & ER & HF & HP). exists F, (complement n zero). split; [exact E|]. split; [exact HF|].
  split; [apply filter_sorted, seq_sorted|]. split; [apply complement_In|]. now split.
Qed.
Example C142_applies : csr_ok 2 (mkCsr [qz 1; qz 2; qz 3] [0; 1; 0] [0; 2; 3]) /\ NoDup [3; 1] /\ (forall i, In i [3; 1] -> i < 2 + 2) /\
  numpy_rebuild (mkCsr [qz 1; qz 2; qz 3] [0; 1; 0] [0; 2; 3]) [3; 1] = Some (mkCsr [qz 1; qz 2; qz 1; qz 3; qz 1] [0; 2; 1; 0; 3] [0; 2; 3; 4; 5], 4).
Proof. split; [csr_ok_tac|]. split; [repeat constructor; cbn; intuition lia|]. split; [cbn; intuition lia|]. vm_compute. reflexivity. Qed.

(** * C143: compute_parallel_expm *)
(** an entry is kept when it is not smaller than the largest of its column over the ratio *)
Definition kept (m : nat) (E : mat) (thresh_ratio : option num) (i j : nat) : Prop :=
  match thresh_ratio with None => True | Some r => forall k, k < m -> (E k j / r <= E i j)%num end.
Theorem C143_parallel_expm : forall G m A E thresh_ratio, (forall v a, a < m -> G m A v a = sumN m (fun b => (E a b * v b)%num)) -> stochastic m E ->
  (forall r, thresh_ratio = Some r -> (0 < r)%num) ->
  let trimmed := value (compute_parallel_expm G m A thresh_ratio false) in
  let T := value (compute_parallel_expm G m A thresh_ratio true) in
  (forall nrm, csr_ok m (compute_parallel_expm G m A thresh_ratio nrm)) /\
  (forall i j, i < m -> j < m -> (kept m E thresh_ratio i j -> trimmed i j = E i j) /\ (~ kept m E thresh_ratio i j -> trimmed i j = 0%num)) /\
  (thresh_ratio = None -> eqm m T E) /\
  ((forall r, thresh_ratio = Some r -> (qn m <= r)%num) -> stochastic m T /\ forall i, i < m -> exists c, (1 <= c)%num /\ forall j, j < m -> T i j = (c * trimmed i j)%num).
Proof.
  intros G m A E thresh HG HE Hr trimmed T.
  assert (HP : forall i j, i < m -> j < m -> (kept m E thresh i j -> trimmed i j = E i j) /\ (~ kept m E thresh i j -> trimmed i j = 0%num)).
  { intros i j Hi Hj. destruct (parallel_entry G m A E HG thresh i j Hi Hj Hr) as [[H1 H2]|[H1 H2]]; split; intros H; try exact H2; contradiction. }
  pose proof (parallel_ok G m A thresh) as Hok. destruct (C24_row_normalise m _ (fun _ => 1%num) (Hok false) ltac:(discriminate)) as (_ & H2 & _ & H4 & _).
  rewrite (parallel_normalised G m A thresh) in H2, H4. fold trimmed T in H2, H4. split; [exact Hok|]. split; [exact HP|].
  assert (HS : (forall r, thresh = Some r -> (qn m <= r)%num) -> forall i, i < m -> (0 < sumN m (trimmed i) /\ sumN m (trimmed i) <= 1)%num) by (intros Hm i Hi; now apply (parallel_row_sum G m A E HG HE thresh i Hi Hm)).
  assert (Hnz : forall x : num, (0 < x)%num -> x <> 0%num) by (intros x Hx E0; rewrite E0 in Hx; revert Hx; apply Qcle_not_lt, Qcle_refl).
  split.
  - intros -> i j Hi Hj. assert (E1 : forall k, k < m -> trimmed i k = E i k) by (intros k Hk; now apply (HP i k Hi Hk)). destruct (HS ltac:(discriminate) i Hi) as [Hp _].
    pose proof (H4 i j Hi Hj (Hnz _ Hp)) as H. rewrite (sumN_ext m (trimmed i) (E i) E1), (proj2 HE i Hi), (E1 j Hj) in H. rewrite Qcmult_1_r in H. rewrite H. ring.
  - intros Hm. assert (HC : forall i, i < m -> exists c, (1 <= c)%num /\ forall j, j < m -> T i j = (c * trimmed i j)%num).
    { intros i Hi. destruct (HS Hm i Hi) as [Hp Hq]. exists (/ sumN m (trimmed i))%num. split.
      - rewrite <- (Qcmult_inv_l (sumN m (trimmed i))) by now apply Hnz. rewrite <- (Qcmult_1_r (/ sumN m (trimmed i))%num) at 2. rewrite (Qcmult_comm _ (sumN m (trimmed i))), (Qcmult_comm _ 1%num). apply Qcmult_le_compat_r; [exact Hq|]. now apply Qclt_le_weak, qinv_pos.
      - intros j Hj. pose proof (H4 i j Hi Hj (Hnz _ Hp)) as H. rewrite Qcmult_1_r in H. rewrite <- H. field. now apply Hnz. }
    split; [|exact HC]. split.
    + intros i j Hi Hj. destruct (HC i Hi) as (c & Hc & Hcj). rewrite (Hcj j Hj). apply qmult_nonneg; [apply Qcle_trans with 1%num; [discriminate|exact Hc]|].
      destruct (parallel_entry G m A E HG thresh i j Hi Hj Hr) as [[_ E0]|[_ E0]]; unfold trimmed; rewrite E0; [now apply HE|apply Qcle_refl].
    + intros i Hi. apply H2; [exact Hi|]. apply Hnz, HS; assumption.
Qed.
Definition E143 : mat := fun i j => match i, j with 0, 0 => qf 9 10 | 0, 1 => qf 1 10 | 1, 0 => qf 1 5 | 1, 1 => qf 4 5 | _, _ => 0%num end.
Example C143_applies : let G := fun m (_ : mat) (v : nat -> num) a => sumN m (fun b => (E143 a b * v b)%num) in
  (forall v a, a < 2 -> G 2 E143 v a = sumN 2 (fun b => (E143 a b * v b)%num)) /\ stochastic 2 E143 /\ (qn 2 <= qz 2)%num /\
  c_data (compute_parallel_expm G 2 E143 (Some (qz 2)) false) = [qf 9 10; qf 4 5] /\ c_data (compute_parallel_expm G 2 E143 (Some (qz 2)) true) = [qz 1; qz 1].
Proof.
  intros G. split; [reflexivity|]. split; [split; [intros [|[|i]] [|[|j]] Hi Hj; try lia; discriminate|intros [|[|i]] Hi; try lia; vm_compute; now apply Qc_is_canon]|]. split; [discriminate|].
  split; compute_all.
Qed.

(** * C144: _stack_sparse_cols *)
Theorem C144_stack_cols : forall N cols, length cols = N -> (forall c e, In c cols -> In e c -> fst e < N) ->
  exists F, stack_cols N cols = Some F /\ csr_ok N F /\ forall r c, r < N -> c < N -> value F c r = entry (nth c cols []) r.
Proof.
  intros N cols HN Hb. exists (of_rows cols). split; [now apply stack_cols_rows|]. split; [now apply csr_ok_of_rows|]. intros r c Hr Hc. rewrite value_rows by (now rewrite HN). reflexivity.
Qed.
Example C144_applies : let cols := [[(1, qz 2)]; []; [(0, qz 3); (2, qz 4)]] in
  length cols = 3 /\ (forall c e, In c cols -> In e c -> fst e < 3) /\ stack_cols 3 cols = Some (mkCsr [qz 2; qz 3; qz 4] [1; 0; 2] [0; 1; 1; 3]).
Proof. intros cols. split; [reflexivity|]. split; [|reflexivity]. intros c e [<-|[<-|[<-|[]]]] He; cbn in He; intuition (subst; cbn; lia). Qed.

(** * C145: the row normalisation of _cython_sparse_stoch_subst.py *)
Definition C145_statement : Prop := forall n M row_sum, csr_ok n M -> row_sum <> 0%num -> other_row_normalise M n row_sum = Some (csr_row_normalise M n (fun _ => row_sum)).
Theorem C145_subst_normalise_refuted : ~ C145_statement.
Proof.
  intros H. specialize (H 2 (mkCsr [qz 1; qz 3] [0; 1] [0; 2; 2]) 1%num ltac:(csr_ok_tac) ltac:(discriminate)).
  apply (f_equal (fun o => match o with Some M => qeqb (nth 0 (c_data M) 0%num) (qz 4) | None => false end)) in H. vm_compute in H. discriminate H.
Qed.
(** what it does: rows whose sum is 0 stay; the others get their sum over row_sum in each entry *)
Theorem C145_subst_normalise_partial : forall n M row_sum, csr_ok n M -> row_sum <> 0%num ->
  exists M', other_row_normalise M n row_sum = Some M' /\ csr_ok n M' /\ forall i, i < n ->
    map fst (row_entries M' i) = map fst (row_entries M i) /\
    (sumN n (value M i) = 0%num -> row_entries M' i = row_entries M i) /\
    (sumN n (value M i) <> 0%num -> forall e, In e (row_entries M' i) -> snd e = (sumN n (value M i) / row_sum)%num).
Proof.
  intros n M rs HM Hr. destruct (other_rows n M rs HM Hr) as (M' & E & HM' & HR). exists M'. split; [exact E|]. split; [exact HM'|]. intros i Hi. rewrite (HR i Hi). rewrite <- (stored_sum_value n M i HM Hi).
  split; [rewrite map_map; reflexivity|]. destruct (qeqb_spec (stored_sum M i) 0%num) as [Ez|Ez].
  - split; [intros _|intros H; contradiction]. rewrite <- (map_id (row_entries M i)) at 2. apply map_ext. intros []; reflexivity.
  - split; [intros H; contradiction|]. intros _ e He. apply in_map_iff in He. destruct He as (f & <- & _). reflexivity.
Qed.
Example C145_applies : csr_ok 3 exM /\ qz 2 <> 0%num /\ option_map c_data (other_row_normalise exM 3 (qz 2)) = Some [qz 2; qz 2; qz 2; qz (-2)].
Proof. split; [csr_ok_tac|]. split; [discriminate|]. compute_all. Qed.

(** * C146: _find_optimal_flow *)
Theorem C146_optimal_flow : forall lsa ns nt R v d d', cheapest lsa -> find_optimal_flow lsa ns nt R = (v, d, d') ->
  exists l, assignment ns nt l /\ v = flow_of R l /\ (forall l', assignment ns nt l' -> (flow_of R l' <= v)%num) /\
    (forall s t, aget Nat.eqb d s = Some t <-> In (s, t) l) /\ (forall s t, aget Nat.eqb d' t = Some s <-> In (s, t) l).
Proof. intros lsa ns nt R v d d' H E. now apply (optimal_flow_spec lsa). Qed.
(** a solver that tries every assignment *)
Fixpoint lists {A} (k : nat) (u : list A) : list (list A) := match k with 0 => [[]] | S k => flat_map (fun x => map (cons x) (lists k u)) u end.
Lemma lists_In {A} k (u : list A) l : In l (lists k u) <-> length l = k /\ forall x, In x l -> In x u.
Proof.
  revert l. induction k as [|k IH]; intros l; cbn [lists].
  - split; [intros [<-|[]]; split; [reflexivity|intros x []]|]. intros [H _]. destruct l; [now left|discriminate].
  - rewrite in_flat_map. split.
    + intros (x & Hx & Hl). apply in_map_iff in Hl. destruct Hl as (l' & <- & Hl). apply IH in Hl. destruct Hl as [H1 H2]. split; [cbn; now rewrite H1|]. intros y [<-|Hy]; auto.
    + intros [H1 H2]. destruct l as [|x l]; [discriminate|]. exists x. split; [apply H2; now left|]. apply in_map, IH. split; [now injection H1|]. intros y Hy. apply H2. now right.
Qed.
Definition distinct (l : list nat) : bool := length (nodup Nat.eq_dec l) =? length l.
Lemma distinct_spec l : distinct l = true <-> NoDup l.
Proof.
  unfold distinct. rewrite Nat.eqb_eq. split; intros H; [|now rewrite nodup_fixed_point].
  apply (NoDup_incl_NoDup (l := nodup Nat.eq_dec l)); [apply NoDup_nodup|lia|]. intros x Hx. now apply nodup_In in Hx.
Qed.
Definition assignments (ns nt : nat) : list (list (nat * nat)) :=
  filter (fun l => andb (distinct (map fst l)) (distinct (map snd l))) (lists (Nat.min ns nt) (list_prod (seq 0 ns) (seq 0 nt))).
Lemma assignments_In ns nt l : In l (assignments ns nt) <-> assignment ns nt l.
Proof.
  unfold assignments, assignment. rewrite filter_In, lists_In, andb_true_iff, !distinct_spec. split.
  - intros [[H1 H2] [H3 H4]]. repeat (split; [assumption|]). intros [a b] Hin. specialize (H2 _ Hin). apply in_prod_iff in H2. rewrite !in_seq in H2. cbn. lia.
  - intros (H1 & H2 & H3 & H4). split; [|now split]. split; [exact H1|]. intros [a b] Hin. specialize (H4 _ Hin). cbn in H4. apply in_prod_iff. rewrite !in_seq. lia.
Qed.
Fixpoint least (f : list (nat * nat) -> num) (d : list (nat * nat)) (c : list (list (nat * nat))) : list (nat * nat) :=
  match c with [] => d | l :: c => least f (if qltb (f l) (f d) then l else d) c end.
Lemma least_spec f c : forall d, (In (least f d c) (d :: c)) /\ forall l, In l (d :: c) -> (f (least f d c) <= f l)%num.
Proof.
  induction c as [|x c IH]; intros d; cbn [least]; [split; [now left|intros l [<-|[]]; apply Qcle_refl]|]. destruct (IH (if qltb (f x) (f d) then x else d)) as [H1 H2]. split.
  - destruct H1 as [H1|H1]; [rewrite <- H1; destruct (qltb (f x) (f d)); [right; now left|now left]|right; now right].
  - intros l Hl. assert (Hx := H2 _ (or_introl eq_refl)). destruct (qltb_spec (f x) (f d)) as [Hlt|Hge].
    + destruct Hl as [<-|[<-|Hl]]; [|exact Hx|apply H2; now right]. apply Qcle_trans with (f x); [exact Hx|now apply Qclt_le_weak].
    + apply Qcnot_lt_le in Hge. destruct Hl as [<-|[<-|Hl]]; [exact Hx| |apply H2; now right]. apply Qcle_trans with (f d); assumption.
Qed.
Definition diagonal_pairs (ns nt : nat) : list (nat * nat) := map (fun i => (i, i)) (seq 0 (Nat.min ns nt)).
Definition try_all (ns nt : nat) (C : mat) : list nat * list nat :=
  let l := least (flow_of C) (diagonal_pairs ns nt) (assignments ns nt) in (map fst l, map snd l).
Lemma try_all_ok : cheapest try_all.
Proof.
  intros ns nt C. unfold try_all. set (l := least _ _ _). cbn [fst snd]. split; [now rewrite !map_length|].
  assert (EC : forall l : list (nat * nat), combine (map fst l) (map snd l) = l) by (clear; induction l as [|[a b] l IH]; [reflexivity|]; cbn; now rewrite IH). rewrite EC.
  destruct (least_spec (flow_of C) (assignments ns nt) (diagonal_pairs ns nt)) as [H1 H2]. fold l in H1, H2. split.
  - destruct H1 as [H1|H1]; [|now apply assignments_In]. rewrite <- H1. unfold assignment, diagonal_pairs. rewrite map_length, seq_length, !map_map. cbn [fst snd]. rewrite !map_id.
    split; [reflexivity|]. split; [apply seq_NoDup|]. split; [apply seq_NoDup|]. intros st Hst. apply in_map_iff in Hst. destruct Hst as (i & <- & Hi). apply in_seq in Hi. cbn. lia.
  - intros l' Hl'. apply H2. right. now apply assignments_In.
Qed.
Definition R146 : mat := fun i j => match i, j with 0, 1 => qf 1 2 | 1, 2 => qf 1 3 | 1, 1 => qf 1 4 | _, _ => 0%num end.
Example C146_applies : cheapest try_all /\ find_optimal_flow try_all 2 3 R146 = (qf 5 6, [(0, 1); (1, 2)], [(1, 0); (2, 1)]).
Proof. split; [exact try_all_ok|]. vm_compute. do 2 f_equal. Qed.

(** * C147: _compute_subsets_connectedness *)
Definition C147_statement : Prop := forall S s1 s2, subsets_connectedness S s1 s2 = Some (sumL (fun i => sumL (S i) s2) s1).
Theorem C147_connectedness_refuted : ~ C147_statement.
Proof. intros H. specialize (H (fun _ _ => 0%num) [] [0; 1]). discriminate H. Qed.
(** missing: an empty first subset with a second one of two nodes or more *)
Theorem C147_connectedness_partial : forall S s1 s2, s1 <> [] \/ length s2 <= 1 -> subsets_connectedness S s1 s2 = Some (sumL (fun i => sumL (S i) s2) s1).
Proof. intros S [|i s1] s2 H; [|reflexivity]. destruct H as [H|H]; [contradiction|]. cbn. destruct s2 as [|a [|b s2]]; [reflexivity|reflexivity|cbn in H; lia]. Qed.
Example C147_applies : [1; 2] <> [] /\ subsets_connectedness (fun i j => qn (i + j)) [1; 2] [0; 3] = Some (qz 12).
Proof. split; [discriminate|]. vm_compute. f_equal. Qed.

(** * C148: set_to_ones *)
Theorem C148_set_to_ones : forall n M tol i j, csr_ok n M -> no_repetition M -> (tol < 1)%num -> i < n -> j < n ->
  csr_ok n (set_to_ones M tol) /\
  value (set_to_ones M tol) i j = if qleb (qabs (value M i j - 1)%num) tol then 1%num else value M i j.
Proof.
  intros n M tol i j HM HR Ht Hi Hj. split.
  - destruct HM as (H1 & H2 & H3 & H4 & H5 & H6). unfold csr_ok, set_to_ones. cbn [c_data c_idx c_ptr]. rewrite map_length. repeat split; assumption.
  - unfold set_to_ones. apply (value_map_data n M (fun v => if qleb (qabs (v - 1)%num) tol then 1%num else v) i j HM HR Hi).
    cbv beta. replace (qabs (0 - 1)%num) with 1%num by (vm_compute; now apply Qc_is_canon). destruct (qleb_spec 1%num tol) as [H|]; [|reflexivity]. exfalso. revert Ht. now apply Qcle_not_lt.
Qed.
Definition M148 : csr := mkCsr [qf 999 1000; qf 1 2; qz 1] [0; 1; 1] [0; 2; 3].
Example C148_applies : csr_ok 2 M148 /\ no_repetition M148 /\ (qf 1 100 < 1)%num /\ c_data (set_to_ones M148 (qf 1 100)) = [qz 1; qf 1 2; qz 1].
Proof.
  split; [csr_ok_tac|]. split; [intros [|[|[|i]]]; vm_compute; repeat constructor; cbn; intuition lia|]. split; [reflexivity|]. compute_all.
Qed.

(** * C149: create_diag *)
Theorem C149_create_diag : forall n d,
  represents (create_diag n d) n (fun i j => if i =? j then d else 0%num) /\
  forall sp A D, scipy_ok sp -> ssm_ok A -> s_size A = n -> create_diag n d = Some D ->
    represents (ssm_matmul sp D A) n (fun i j => (d * full A i j)%num) /\ represents (ssm_matmul sp A D) n (fun i j => (full A i j * d)%num).
Proof.
  intros n d. destruct (ssm_init_ok n (mkCsr [] [] [0]) [] d ltac:(apply csr_okb_sound; reflexivity) ltac:(constructor) ltac:(intros i [])) as [E Hok].
  assert (HF : represents (create_diag n d) n (fun i j => if i =? j then d else 0%num)) by (eapply represents_rep; [exact E|exact Hok|reflexivity|]; intros i j Hi Hj; reflexivity).
  split; [exact HF|]. intros sp A D Hsp HA HsA ED. unfold create_diag in ED. rewrite E in ED. injection ED as <-. set (D := mkS n [] (mkCsr [] [] [0]) d) in *.
  assert (HD : forall i j, i < n -> j < n -> full D i j = if i =? j then d else 0%num) by (intros i j Hi Hj; rewrite (full_rep D i j Hok Hi Hj); reflexivity).
  split.
  - apply (represents_ext _ n (fun i j => sumN n (fun k => (full D i k * full A k j)%num))); [|apply (C22_product sp D A Hsp Hok HA HsA)].
    intros i j Hi Hj. rewrite <- (sumN_delta n i (fun k => (d * full A k j)%num) Hi). apply sumN_ext. intros k Hk. rewrite (HD i k Hi Hk), (Nat.eqb_sym i k). destruct (k =? i); ring.
  - apply (represents_ext _ n (fun i j => sumN n (fun k => (full A i k * full D k j)%num))).
    + intros i j Hi Hj. rewrite <- (sumN_delta n j (fun k => (full A i k * d)%num) Hj). apply sumN_ext. intros k Hk. rewrite (HD k j Hk Hj). destruct (k =? j); ring.
    + rewrite <- HsA. apply (C22_product sp A D Hsp HA Hok). now symmetry.
Qed.
Example C149_applies : create_diag 4 (qz 3) = Some (mkS 4 [] (mkCsr [] [] [0]) (qz 3)) /\ ssm_ok exA /\ s_size exA = 4 /\ scipy_ok dense_scipy.
Proof. split; [reflexivity|]. split; [exact exA_ok|]. split; [reflexivity|exact dense_scipy_ok]. Qed.

Print Assumptions C138_sparse_stationary.
Print Assumptions C139_sparse_lin_approx.
Print Assumptions C139_other_size.
Print Assumptions C139_network.
Print Assumptions C140_outer_refuted.
Print Assumptions C140_zero_refuted.
Print Assumptions C140_outer_partial.
Print Assumptions C141_csc_row_normalise.
Print Assumptions C142_numpy_rebuild.
Print Assumptions C143_parallel_expm.
Print Assumptions C144_stack_cols.
Print Assumptions C145_subst_normalise_refuted.
Print Assumptions C145_subst_normalise_partial.
Print Assumptions C146_optimal_flow.
Print Assumptions C147_connectedness_refuted.
Print Assumptions C147_connectedness_partial.
Print Assumptions C148_set_to_ones.
Print Assumptions C149_create_diag.
