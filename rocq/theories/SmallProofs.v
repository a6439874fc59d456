(** Proofs about matrices given by their used rows and columns. *)
From Verif Require Import Base LouvainModel SparseModel SparseSpec SparseProofs SparseOpsProofs SparseConvProofs
  TransModel TransSpec MatProofs TransProofs ExpmProofs SmallModel SmallSpec.
Local Open Scope bool_scope.

(** ** Part of a matrix *)
Section Part.
Context (n : nat) (T : csr) (nz : list nat) (A : ssm).
Hypothesis HT : csr_ok n T.
Hypothesis Hs : StronglySorted lt nz.
Hypothesis Hb : forall i, In i nz -> i < n.
Hypothesis Ho : diagonal_outside n T nz 1%num.
Hypothesis EA : from_full_kernel nz T 1%num = Some A.
Let m := length nz.
Lemma part_ok : ssm_ok A /\ s_size A = n /\ s_nz A = nz /\ s_diag A = 1%num /\ csr_ok m (s_small A) /\
  (forall a b, a < m -> b < m -> value (s_small A) a b = value T (nth a nz 0) (nth b nz 0)).
Proof.
  destruct (from_full_kernel_spec n T nz 1%num HT ltac:(discriminate) Hs Hb Ho) as (A' & E & Hok & Hsz & Hnz & Hd & Hv). rewrite EA in E. injection E as <-.
  split; [exact Hok|]. split; [exact Hsz|]. split; [exact Hnz|]. split; [exact Hd|]. split; [unfold m; rewrite <- Hnz; apply Hok|].
  intros a b Ha Hb'. rewrite <- Hv by (apply Hb, nth_In; assumption). unfold rep. rewrite Hnz, !pos_of_nth by (assumption || now apply sorted_NoDup). reflexivity.
Qed.
Lemma part_small : s_small A = of_rows (map (fun tb => map (fun e => (btos nz (fst e), snd e)) (row_entries T tb)) nz).
Proof.
  pose proof EA as E. unfold from_full_kernel in E. destruct (Z.leb _ _); [|discriminate]. unfold ssm_init in E. destruct (_ =? _) in E; [|discriminate]. injection E as <-. reflexivity.
Qed.
Lemma part_degs a : a < m -> degs_of (s_small A) a = degs_of T (nth a nz 0).
Proof.
  intros Ha. destruct part_ok as (_ & _ & _ & _ & Hok & _). unfold degs_of.
  rewrite (proj2 (eliminate_zeros_spec m _ Hok) a Ha), (proj2 (eliminate_zeros_spec n T HT) (nth a nz 0) (Hb _ (nth_In _ _ Ha))).
  rewrite part_small, row_entries_of_rows by (now rewrite map_length). rewrite (nth_map_dep _ _ _ 0) by exact Ha.
  generalize (row_entries T (nth a nz 0)). induction l as [|e l IH]; [reflexivity|]. cbn [map filter snd]. destruct (negb _); cbn [length]; now rewrite IH.
Qed.
Let R (i j : nat) : Prop := value T i j <> 0%num.
Let r (a b : nat) : Prop := value (s_small A) a b <> 0%num.
Lemma step_inside i j : i < n -> j < n -> R i j \/ R j i -> i = j \/ (In i nz /\ In j nz).
Proof.
  intros Hi Hj H. destruct (Nat.eq_dec i j) as [|Hne]; [now left|right].
  assert (G : forall x y, x < n -> y < n -> x <> y -> R x y -> In x nz /\ In y nz).
  { intros x y Hx Hy Hxy HR. destruct (in_dec Nat.eq_dec x nz) as [H1|H1]; [destruct (in_dec Nat.eq_dec y nz) as [H2|H2]; [now split|]|]; exfalso; apply HR; rewrite (Ho x y Hx Hy) by tauto;
      destruct (Nat.eqb_spec x y); congruence. }
  destruct H as [H|H]; [now apply G|]. destruct (G j i Hj Hi (fun E => Hne (eq_sym E)) H). now split.
Qed.
Lemma linked_lt (S : nat -> nat -> Prop) k x y : linked k S x y -> y < k.
Proof. intros H. inversion H; assumption. Qed.
Lemma linked_part a b : a < m -> b < m -> linked m r a b <-> linked n R (nth a nz 0) (nth b nz 0).
Proof.
  destruct part_ok as (_ & _ & _ & _ & Hok & Hv). intros Ha Hb'. split.
  - intros H. clear Hb'. induction H as [a Hi|a b c H IH Hc Hbc]; [apply linked_refl, Hb, nth_In, Ha|].
    pose proof (linked_lt _ _ _ _ H) as Hbm. apply (linked_step _ _ _ _ _ (IH Ha)); [apply Hb, nth_In, Hc|]. unfold R. rewrite <- !Hv by assumption. exact Hbc.
  - intros H. assert (G : forall x y, linked n R x y -> forall a, a < m -> x = nth a nz 0 -> exists b, b < m /\ y = nth b nz 0 /\ linked m r a b).
    { intros x y Hxy. induction Hxy as [x Hx|x y z Hxy IH Hz Hyz]; intros a' Ha' E; [exists a'; split; [exact Ha'|]; split; [exact E|]; now apply linked_refl|].
      destruct (IH a' Ha' E) as (b' & Hb1 & E2 & HL). destruct (step_inside y z (linked_lt _ _ _ _ Hxy) Hz Hyz) as [<-|[_ Hin]]; [exists b'; auto|].
      apply (In_nth _ _ 0) in Hin. destruct Hin as (c & Hc & Ec). exists c. split; [exact Hc|]. split; [now symmetry|]. apply (linked_step _ _ _ _ _ HL); [exact Hc|].
      unfold r. rewrite !Hv by assumption. rewrite Ec, <- E2. exact Hyz. }
    destruct (G _ _ H a Ha eq_refl) as (b' & Hb1 & E & HL). assert (b = b') as ->; [|exact HL]. apply (proj1 (NoDup_nth nz 0)); [now apply sorted_NoDup|exact Hb'|exact Hb1|exact E].
Qed.
Lemma linked_outside i j : i < n -> linked n R i j -> ~ (In i nz /\ In j nz) -> i = j.
Proof.
  intros Hi H. induction H as [i _|i j k H IH Hk Hjk]; [reflexivity|]. intros Hn. destruct (step_inside j k (linked_lt _ _ _ _ H) Hk Hjk) as [<-|[H1 H2]]; [now apply IH|].
  destruct (in_dec Nat.eq_dec i nz) as [Hin|Hin]; [exfalso; apply Hn; now split|]. assert (E : i = j) by (apply IH; [exact Hi|tauto]). subst j. now contradict Hin.
Qed.
Context (nc : nat) (lab : nat -> nat) (nc' : nat) (lab' : nat -> nat).
Hypothesis HL : component_labels n (value T) nc lab.
Hypothesis HL' : component_labels m (value (s_small A)) nc' lab'.
Lemma labels_part a b : a < m -> b < m -> lab' a = lab' b <-> lab (nth a nz 0) = lab (nth b nz 0).
Proof.
  intros Ha Hb'. rewrite (proj2 HL' a b Ha Hb'), (proj2 HL _ _ (Hb _ (nth_In _ _ Ha)) (Hb _ (nth_In _ _ Hb'))). now apply linked_part.
Qed.
Lemma stationary_inside a b : a < m -> b < m -> value (stationary_transition m lab' (s_small A)) a b = value (stationary_transition n lab T) (nth a nz 0) (nth b nz 0).
Proof.
  intros Ha Hb'. destruct part_ok as (_ & _ & _ & _ & Hok & _). assert (Hin : forall k, k < m -> nth k nz 0 < n) by (intros; now apply Hb, nth_In).
  rewrite (stationary_value m lab' _ a b Hok Ha Hb'), (stationary_value n lab T _ _ HT (Hin a Ha) (Hin b Hb')).
  assert (Eb : (lab' a =? lab' b) = (lab (nth a nz 0) =? lab (nth b nz 0))).
  { destruct (Nat.eqb_spec (lab' a) (lab' b)) as [E|E], (Nat.eqb_spec (lab (nth a nz 0)) (lab (nth b nz 0))) as [E'|E']; try reflexivity; exfalso; apply (labels_part a b Ha Hb') in E || apply (labels_part a b Ha Hb') in E'; contradiction. }
  rewrite Eb. destruct (lab (nth a nz 0) =? lab (nth b nz 0)); [|reflexivity]. rewrite (part_degs b Hb'). f_equal.
  transitivity (sumL (fun k => if lab k =? lab (nth a nz 0) then qn (degs_of T k) else 0%num) (filter (fun i => memb i nz) (seq 0 n))).
  - rewrite (sumL_perm _ _ _ (sub_seq_perm nz n (sorted_NoDup _ Hs) Hb)), (sumL_nth nz _ 0). apply sumN_ext. intros k Hk. rewrite (part_degs k Hk).
    destruct (Nat.eqb_spec (lab' k) (lab' a)) as [E|E], (Nat.eqb_spec (lab (nth k nz 0)) (lab (nth a nz 0))) as [E'|E']; try reflexivity; exfalso; apply (labels_part k a Hk Ha) in E || apply (labels_part k a Hk Ha) in E'; contradiction.
  - rewrite sumL_filter. apply sumN_ext. intros k Hk. destruct (memb k nz) eqn:EM; [reflexivity|]. apply memb_false in EM.
    destruct (Nat.eqb_spec (lab k) (lab (nth a nz 0))) as [E|]; [|reflexivity]. exfalso. apply (proj2 HL k _ Hk (Hin a Ha)) in E.
    apply (linked_outside _ _ Hk) in E; [|tauto]. apply EM. rewrite E. now apply nth_In.
Qed.
Lemma degs_outside i : i < n -> ~ In i nz -> 0 < degs_of T i.
Proof.
  intros Hi Hn. unfold degs_of. rewrite (proj2 (eliminate_zeros_spec n T HT) i Hi). assert (E : value T i i = 1%num) by (rewrite (Ho i i Hi Hi) by tauto; now rewrite Nat.eqb_refl).
  destruct (filter _ (row_entries T i)) as [|e l] eqn:EF; [|cbn; lia]. exfalso.
  assert (Z : value T i i = 0%num).
  { unfold value. apply sumL_zero. intros e He. destruct (qeqb_spec (snd e) 0%num) as [Ee|Ee]; [rewrite Ee; now destruct (fst e =? i)|].
    exfalso. assert (H : In e (filter (fun e => negb (qeqb (snd e) 0%num)) (row_entries T i))) by (apply filter_In; split; [exact He|]; destruct (qeqb_spec (snd e) 0%num); [contradiction|reflexivity]). now rewrite EF in H. }
  rewrite Z in E. discriminate.
Qed.
Lemma stationary_outside i j : i < n -> j < n -> ~ (In i nz /\ In j nz) -> value (stationary_transition n lab T) i j = if i =? j then 1%num else 0%num.
Proof.
  intros Hi Hj Hn. rewrite (stationary_value n lab T i j HT Hi Hj). destruct (Nat.eqb_spec i j) as [<-|Hne].
  - rewrite Nat.eqb_refl. assert (Hni : ~ In i nz) by tauto. rewrite (sumN_ext n _ (fun k => if k =? i then qn (degs_of T k) else 0%num)).
    + rewrite (sumN_delta n i (fun k => qn (degs_of T k))) by exact Hi. assert (Hp : (0 < qn (degs_of T i))%num) by (rewrite <- qn_0; apply qn_lt; now apply degs_outside).
      field. intros E. rewrite E in Hp. revert Hp. apply Qcle_not_lt, Qcle_refl.
    + intros k Hk. destruct (Nat.eqb_spec k i) as [->|Hki]; [now rewrite Nat.eqb_refl|]. destruct (Nat.eqb_spec (lab k) (lab i)) as [E|]; [|reflexivity].
      exfalso. apply (proj2 HL k i Hk Hi) in E. apply Hki. apply (linked_outside _ _ Hk E). tauto.
  - destruct (Nat.eqb_spec (lab i) (lab j)) as [E|]; [|reflexivity]. exfalso. apply Hne. apply (proj2 HL i j Hi Hj) in E. now apply (linked_outside _ _ Hi E).
Qed.
End Part.

(** a small matrix placed in an identity *)
Lemma placed_represents n nz M f : csr_ok (length nz) M -> StronglySorted lt nz -> (forall i, In i nz -> i < n) ->
  (forall a b, a < length nz -> b < length nz -> value M a b = f (nth a nz 0) (nth b nz 0)) ->
  (forall i j, i < n -> j < n -> ~ (In i nz /\ In j nz) -> f i j = if i =? j then 1%num else 0%num) ->
  represents (ssm_init n M nz 1%num) n f.
Proof.
  intros HM Hs Hb Hin Hout. destruct (ssm_init_ok n M nz 1%num HM Hs Hb) as [E Hok]. eapply represents_rep; [exact E|exact Hok|reflexivity|].
  intros i j Hi Hj. unfold rep. cbn [s_nz s_small s_diag]. destruct (pos i nz) as [a|] eqn:Ea; [destruct (pos j nz) as [b|] eqn:Eb|].
  - rewrite (Hin a b (pos_lt _ _ _ Ea) (pos_lt _ _ _ Eb)). now rewrite (pos_nth _ _ _ 0 Ea), (pos_nth _ _ _ 0 Eb).
  - symmetry. apply Hout; [exact Hi|exact Hj|]. apply pos_None in Eb. tauto.
  - symmetry. apply Hout; [exact Hi|exact Hj|]. apply pos_None in Ea. tauto.
Qed.
Lemma from_full_None n T : csr_ok n T -> from_full T None 1%num = from_full_kernel (nz_rowcols_of n T 1%num) T 1%num.
Proof. intros HT. unfold from_full. rewrite (proj1 HT). now replace (S n - 1) with n by lia. Qed.
Lemma part_defined n T nz : csr_ok n T -> StronglySorted lt nz -> (forall i, In i nz -> i < n) -> diagonal_outside n T nz 1%num ->
  exists A, from_full_kernel nz T 1%num = Some A.
Proof. intros HT Hs Hb Ho. destruct (from_full_kernel_spec n T nz 1%num HT ltac:(discriminate) Hs Hb Ho) as (A & E & _). now exists A. Qed.

Lemma sparse_stationary_spec comps n T nc lab : components_ok comps -> csr_ok n T -> component_labels n (value T) nc lab ->
  exists C, sparse_stationary comps T = Some C /\ s_nz C = nz_rowcols_of n T 1%num /\ csr_ok (length (s_nz C)) (s_small C) /\
    (forall a b, a < length (s_nz C) -> b < length (s_nz C) -> value (s_small C) a b = value (stationary_transition n lab T) (nth a (s_nz C) 0) (nth b (s_nz C) 0)) /\
    represents (Some C) n (value (stationary_transition n lab T)).
Proof.
  intros HC HT HL. destruct (nz_rowcols_spec n T 1%num) as (Hs & Hb & Ho). set (nz := nz_rowcols_of n T 1%num) in *.
  destruct (part_defined n T nz HT Hs Hb Ho) as (A & EA). destruct (part_ok n T nz A HT Hs Hb Ho EA) as (Hok & Hsz & Hnz & Hd & HM & Hv).
  unfold sparse_stationary. rewrite (from_full_None n T HT). fold nz. rewrite EA. cbn [obind]. rewrite Hsz, Hnz.
  set (M := stationary_of comps (length nz) (s_small A)). assert (HM' : csr_ok (length nz) M) by apply stationary_ok.
  assert (Hin : forall a b, a < length nz -> b < length nz -> value M a b = value (stationary_transition n lab T) (nth a nz 0) (nth b nz 0)).
  { intros a b Ha Hb'. unfold M, stationary_of. apply (stationary_inside n T nz A HT Hs Hb Ho EA nc lab _ _ HL (HC _ _) a b Ha Hb'). }
  destruct (ssm_init_ok n M nz 1%num HM' Hs Hb) as [E _]. exists (mkS n nz M 1%num). split; [exact E|]. cbn [s_nz s_small]. split; [reflexivity|]. split; [exact HM'|]. split; [exact Hin|].
  rewrite <- E. apply placed_represents; [exact HM'|exact Hs|exact Hb|exact Hin|]. intros i j Hi Hj Hn. now apply (stationary_outside n T nz A HT Ho nc lab HL).
Qed.

(** ** Linear approximation *)
Lemma csr_eye_spec m : csr_ok m (csr_eye m) /\ eqm m (value (csr_eye m)) ident.
Proof.
  assert (E : csr_eye m = of_rows (map (fun i => [(i, 1%num)]) (seq 0 m))).
  { unfold csr_eye, of_rows. f_equal.
    - generalize 0. induction m as [|m IH]; intros k; [reflexivity|]. cbn. now rewrite <- IH.
    - generalize 0. induction m as [|m IH]; intros k; [reflexivity|]. cbn. now rewrite <- IH.
    - assert (G : forall k s, seq s (S k) = ptrs s (map (fun i => [(i, 1%num)]) (seq s k))).
      { induction k as [|k IH]; intros s; [reflexivity|]. cbn [seq map ptrs length]. f_equal. rewrite Nat.add_1_r. rewrite <- IH. reflexivity. }
      apply G. }
  rewrite E. split.
  - apply csr_ok_of_rows; [now rewrite map_length, seq_length|]. intros r e Hr He. apply in_map_iff in Hr. destruct Hr as (i & <- & Hi). destruct He as [<-|[]]. apply in_seq in Hi. cbn. lia.
  - intros i j Hi Hj. rewrite value_rows by (now rewrite map_length, seq_length). rewrite (nth_map_dep _ _ _ 0) by (now rewrite seq_length). rewrite seq_nth by exact Hi. rewrite Nat.add_0_l. unfold scattered. rewrite sumL_cons, sumL_nil. cbn [fst snd]. unfold ident. destruct (i =? j); ring.
Qed.
Lemma csr_scale_spec m c A : csr_ok m A -> csr_ok m (csr_scale c A) /\ eqm m (value (csr_scale c A)) (mscal c (value A)).
Proof.
  intros HA. split.
  - destruct HA as (H1 & H2 & H3 & H4 & H5 & H6). unfold csr_ok, csr_scale. cbn [c_data c_idx c_ptr]. rewrite map_length. repeat split; assumption.
  - intros i j Hi Hj. unfold mscal, csr_scale. unfold value at 1. rewrite (row_entries_map_data m A _ i HA Hi), sumL_map. cbn [fst snd]. unfold value. rewrite <- sumL_scal_l. apply sumL_ext. intros e _. destruct (fst e =? j); ring.
Qed.
Lemma csr_plus_spec m A B : csr_ok m A -> csr_ok m B -> exists C, csr_plus m A B = Some C /\ csr_ok m C /\ eqm m (value C) (mplus (value A) (value B)).
Proof.
  intros HA HB. unfold csr_plus. rewrite (proj1 HA), (proj1 HB), Nat.eqb_refl. destruct (csr_of_dense_spec m (mplus (value A) (value B))) as (H1 & H2 & _). eexists. split; [reflexivity|]. now split.
Qed.
Lemma lin_approx_csr_spec m T t Pi t_s : csr_ok m T -> csr_ok m Pi -> (0 <= t)%num ->
  exists M B, lin_approx_csr m T t Pi t_s = Some M /\ lin_approx (value T) t (value Pi) t_s = Some B /\ csr_ok m M /\ eqm m (value M) B.
Proof.
  intros HT HP Ht. unfold lin_approx_csr, lin_approx. destruct (qltb_spec t 0%num) as [H|_]; [exfalso; revert H; now apply Qcle_not_lt|].
  destruct (qleb t 1%num).
  - destruct (csr_eye_spec m) as [H1 H2]. destruct (csr_scale_spec m (1 - t)%num _ H1) as [H3 H4]. destruct (csr_scale_spec m t T HT) as [H5 H6].
    destruct (csr_plus_spec m _ _ H3 H5) as (C & E & HC & Hv). exists C, (mplus (mscal (1 - t)%num ident) (mscal t (value T))). split; [exact E|]. split; [reflexivity|]. split; [exact HC|].
    intros i j Hi Hj. rewrite Hv by assumption. unfold mplus. rewrite H4, H6 by assumption. unfold mscal. now rewrite H2 by assumption.
  - destruct (qltb t t_s).
    + destruct (csr_scale_spec m (t - t_s)%num T HT) as [H3 H4]. destruct (csr_scale_spec m (1 - t)%num Pi HP) as [H5 H6].
      destruct (csr_plus_spec m _ _ H3 H5) as (C & E & HC & Hv). rewrite E. cbn [option_map]. destruct (csr_scale_spec m (1 / (1 - t_s))%num C HC) as [H7 H8].
      eexists. eexists. split; [reflexivity|]. split; [reflexivity|]. split; [exact H7|]. intros i j Hi Hj. rewrite H8 by assumption. unfold mscal at 1 2. rewrite Hv by assumption. unfold mplus. now rewrite H4, H6 by assumption.
    + exists Pi, (value Pi). split; [reflexivity|]. split; [reflexivity|]. split; [exact HP|]. apply eqm_refl.
Qed.
(** entries of the interpolation depend on those of the two matrices at the same place *)
Lemma lin_approx_entry T t Pi t_s A T' Pi' A' i j i' j' : lin_approx T t Pi t_s = Some A -> lin_approx T' t Pi' t_s = Some A' ->
  T i j = T' i' j' -> Pi i j = Pi' i' j' -> (i =? j) = (i' =? j') -> A i j = A' i' j'.
Proof.
  unfold lin_approx. intros E E' HT HP HI. destruct (qltb t 0%num); [discriminate|]. destruct (qleb t 1%num); [|destruct (qltb t t_s)]; injection E as <-; injection E' as <-.
  - unfold mplus, mscal, ident. now rewrite HT, HI.
  - unfold mplus, mscal. now rewrite HT, HP.
  - exact HP.
Qed.
Lemma lin_approx_diag T t Pi t_s A i j : (0 <= t)%num -> lin_approx T t Pi t_s = Some A ->
  T i j = (if i =? j then 1%num else 0%num) -> Pi i j = (if i =? j then 1%num else 0%num) -> A i j = if i =? j then 1%num else 0%num.
Proof.
  intros Ht E HT HP. unfold lin_approx in E. destruct (qltb t 0%num); [discriminate|]. destruct (qleb_spec t 1%num) as [H1|H1]; [|destruct (qltb_spec t t_s) as [H2|H2]]; injection E as <-.
  - unfold mplus, mscal, ident. rewrite HT. destruct (i =? j); ring.
  - unfold mplus, mscal. rewrite HT, HP. apply Qcnot_le_lt in H1. assert (H3 : (1 - t_s)%num <> 0%num) by (intros E3; qlra). destruct (i =? j); [field; exact H3|ring].
  - exact HP.
Qed.
Lemma sparse_lin_general comps n T nz t t_s Pi Ps A P : csr_ok n T -> StronglySorted lt nz -> (forall i, In i nz -> i < n) -> diagonal_outside n T nz 1%num ->
  from_full_kernel nz T 1%num = Some A ->
  (match Pi with PiNone => Some (stationary_of comps (length nz) (s_small A)) | PiSparse P => Some (s_small P) | PiCsr P => option_map s_small (from_full_kernel nz P 1%num) end) = Some Ps ->
  csr_ok (length nz) Ps -> (forall a b, a < length nz -> b < length nz -> value Ps a b = P (nth a nz 0) (nth b nz 0)) ->
  (forall i j, i < n -> j < n -> ~ (In i nz /\ In j nz) -> P i j = if i =? j then 1%num else 0%num) -> (0 <= t)%num ->
  exists B, lin_approx (value T) t P t_s = Some B /\
    represents (obind (Some A) (fun A => obind (match Pi with PiNone => Some (stationary_of comps (length (s_nz A)) (s_small A)) | PiSparse P => Some (s_small P) | PiCsr P => option_map s_small (from_full_kernel nz P 1%num) end)
      (fun Ps => obind (lin_approx_csr (length (s_nz A)) (s_small A) t Ps t_s) (fun M => ssm_init (s_size A) M (s_nz A) 1%num)))) n B.
Proof.
  intros HT Hs Hb Ho EA EP HPs Hin Hout Ht. destruct (part_ok n T nz A HT Hs Hb Ho EA) as (Hok & Hsz & Hnz & Hd & HM & Hv).
  destruct (lin_approx_defined (value T) t P t_s Ht) as (B & EB). exists B. split; [exact EB|]. cbn [obind]. rewrite Hnz, EP. cbn [obind].
  destruct (lin_approx_csr_spec (length nz) (s_small A) t Ps t_s HM HPs Ht) as (M & B' & EM & EB' & HM' & HB'). rewrite EM. cbn [obind]. rewrite Hsz.
  apply placed_represents; [exact HM'|exact Hs|exact Hb| |].
  - intros a b Ha Hb'. rewrite HB' by assumption. apply (lin_approx_entry _ _ _ _ _ _ _ _ _ _ _ _ EB' EB); [now apply Hv|now apply Hin|].
    destruct (Nat.eqb_spec a b) as [->|Hne]; [now rewrite Nat.eqb_refl|]. symmetry. apply Nat.eqb_neq. intros E. apply Hne. apply (proj1 (NoDup_nth nz 0)); [now apply sorted_NoDup|exact Ha|exact Hb'|exact E].
  - intros i j Hi Hj Hn. apply (lin_approx_diag _ _ _ _ _ _ _ Ht EB); [now apply Ho|now apply Hout].
Qed.
Lemma interpolated_value T t Pi t_s A i j : lin_approx T t Pi t_s = Some A -> A i j = interpolated t t_s T Pi i j.
Proof.
  unfold lin_approx, interpolated. destruct (qltb t 0%num); [discriminate|]. destruct (qleb_spec t 1%num) as [H1|H1]; [|destruct (qltb_spec t t_s) as [H2|H2]]; intros E; injection E as <-.
  - reflexivity.
  - unfold mscal, mplus. apply Qcnot_le_lt in H1. assert (H3 : (1 - t_s)%num <> 0%num) by (intros E3; qlra). assert (H4 : (t_s - 1)%num <> 0%num) by (intros E3; qlra). field. now split.
  - reflexivity.
Qed.
Lemma stationary_at_value n T lab i j : csr_ok n T -> no_repetition T -> i < n -> j < n -> value (stationary_transition n lab T) i j = stationary_at n (value T) lab i j.
Proof.
  intros HT HR Hi Hj. rewrite stationary_value by assumption. unfold stationary_at. rewrite (degs_nonzeros n T j HT HR Hj).
  rewrite (sumN_ext n (fun k => if lab k =? lab i then qn (degs_of T k) else 0%num) (fun k => if lab k =? lab i then qn (row_nonzeros n (value T) k) else 0%num)); [reflexivity|].
  intros k Hk. now rewrite (degs_nonzeros n T k HT HR Hk).
Qed.
Lemma represents_ext o n f g : eqm n f g -> represents o n f -> represents o n g.
Proof. intros E (C & H1 & H2 & H3 & M & H4 & H5 & H6). exists C. repeat (split; [assumption|]). exists M. repeat (split; [assumption|]). intros i j Hi Hj. rewrite <- E by congruence. auto. Qed.

(** the stationary matrix uses the same rows and columns *)
Lemma row_other n T i : i < n -> sumN n (T i) = 1%num -> T i i <> 1%num -> exists j, j < n /\ j <> i /\ T i j <> 0%num.
Proof.
  intros Hi Hs Hn. destruct (existsb (fun j => negb (j =? i) && negb (qeqb (T i j) 0%num)) (seq 0 n)) eqn:E.
  - apply existsb_exists in E. destruct E as (j & Hj & E). apply in_seq in Hj. apply andb_true_iff in E. destruct E as [E1 E2]. exists j. split; [lia|]. split; [now apply negb_true_iff, Nat.eqb_neq in E1|]. destruct (qeqb_spec (T i j) 0%num); [discriminate|assumption].
  - exfalso. apply Hn. rewrite <- Hs. rewrite (sumN_ext n (T i) (fun j => if j =? i then T i j else 0%num)); [symmetry; now apply sumN_delta|].
    intros j Hj. destruct (Nat.eqb_spec j i) as [|Hne]; [reflexivity|]. destruct (qeqb_spec (T i j) 0%num) as [|Hz]; [assumption|]. exfalso.
    rewrite <- not_true_iff_false in E. apply E. apply existsb_exists. exists j. split; [apply in_seq; lia|]. rewrite (proj2 (Nat.eqb_neq j i) Hne). destruct (qeqb_spec (T i j) 0%num); [contradiction|reflexivity].
Qed.
Lemma neqb_ne a b : negb (qeqb a b) = true <-> a <> b.
Proof. destruct (qeqb_spec a b) as [E|E]; cbn; split; intros H; try assumption; try reflexivity; [discriminate|contradiction]. Qed.
Lemma nz_In n T i : In i (nz_rowcols_of n T 1%num) <-> i < n /\ exists j, j < n /\ (value T i j <> (if i =? j then 1%num else 0%num) \/ value T j i <> (if i =? j then 1%num else 0%num)).
Proof.
  unfold nz_rowcols_of. rewrite filter_In, existsb_exists, in_seq. split.
  - intros [Hi (j & Hj & E)]. apply in_seq in Hj. split; [lia|]. exists j. split; [lia|]. apply orb_true_iff in E.
    now rewrite !neqb_ne in E.
  - intros [Hi (j & Hj & E)]. split; [lia|]. exists j. split; [apply in_seq; lia|]. apply orb_true_iff.
    now rewrite !neqb_ne.
Qed.
Lemma sorted_same (l l' : list nat) : StronglySorted lt l -> StronglySorted lt l' -> (forall i, In i l <-> In i l') -> l = l'.
Proof.
  revert l'. induction l as [|x l IH]; intros l' H H' HE.
  - destruct l' as [|y l']; [reflexivity|]. exfalso. apply (HE y). now left.
  - destruct l' as [|y l']; [exfalso; apply (HE x); now left|]. inversion H as [|? ? Hl Hx]; subst. inversion H' as [|? ? Hl' Hy]; subst.
    rewrite Forall_forall in Hx, Hy. assert (x = y) as <-.
    { destruct (proj1 (HE x) (or_introl eq_refl)) as [->|H1]; [reflexivity|]. destruct (proj2 (HE y) (or_introl eq_refl)) as [->|H2]; [reflexivity|]. specialize (Hx _ H2). specialize (Hy _ H1). lia. }
    f_equal. apply IH; [assumption|assumption|]. intros i. split; intros Hi.
    + destruct (proj1 (HE i) (or_intror Hi)) as [->|H1]; [|exact H1]. specialize (Hx _ Hi). lia.
    + destruct (proj2 (HE i) (or_intror Hi)) as [->|H1]; [|exact H1]. specialize (Hy _ Hi). lia.
Qed.
Lemma degs_pos n T i : csr_ok n T -> i < n -> (exists j, value T i j <> 0%num) -> 0 < degs_of T i.
Proof.
  intros HT Hi (j & Hj). unfold degs_of. rewrite (proj2 (eliminate_zeros_spec n T HT) i Hi). destruct (filter _ (row_entries T i)) as [|e l] eqn:EF; [|cbn; lia]. exfalso. apply Hj.
  unfold value. apply sumL_zero. intros e He. destruct (qeqb_spec (snd e) 0%num) as [Ee|Ee]; [rewrite Ee; now destruct (fst e =? j)|].
  exfalso. assert (H : In e (filter (fun e => negb (qeqb (snd e) 0%num)) (row_entries T i))) by (apply filter_In; split; [exact He|]; destruct (qeqb_spec (snd e) 0%num); [contradiction|reflexivity]). now rewrite EF in H.
Qed.
Lemma stationary_same_nz n T nc lab P : csr_ok n T -> (forall i, i < n -> sumN n (value T i) = 1%num) -> component_labels n (value T) nc lab ->
  eqm n (value P) (value (stationary_transition n lab T)) -> nz_rowcols_of n P 1%num = nz_rowcols_of n T 1%num.
Proof.
  intros HT Hsum HL HP. destruct (nz_rowcols_spec n T 1%num) as (Hs & Hb & Ho). destruct (nz_rowcols_spec n P 1%num) as (Hs' & Hb' & Ho'). destruct (part_defined n T _ HT Hs Hb Ho) as (A & EA).
  assert (Hdeg : forall i, i < n -> 0 < degs_of T i).
  { intros i Hi. apply (degs_pos n T i HT Hi). destruct (Qc_eq_dec (value T i i) 1%num) as [E|E]; [exists i; rewrite E; discriminate|]. destruct (row_other n (value T) i Hi (Hsum i Hi) E) as (j & _ & _ & Hj). now exists j. }
  apply sorted_same; [assumption|assumption|]. intros i. split; intros Hi.
  - destruct (in_dec Nat.eq_dec i (nz_rowcols_of n T 1%num)) as [|Hn]; [assumption|]. exfalso. apply nz_In in Hi. destruct Hi as (Hi & j & Hj & [E|E]); apply E; rewrite HP by assumption.
    + rewrite (stationary_outside n T _ A HT Ho nc lab HL) by tauto. reflexivity.
    + rewrite (stationary_outside n T _ A HT Ho nc lab HL) by tauto. now rewrite Nat.eqb_sym.
  - assert (G : i < n /\ exists j, j < n /\ j <> i /\ lab i = lab j).
    { apply nz_In in Hi. destruct Hi as (Hi & j & Hj & E). split; [exact Hi|].
      assert (Q : forall a b, a < n -> b < n -> a <> b -> value T a b <> 0%num -> lab a = lab b).
      { intros a b Ha Hb0 Hab HT0. apply (proj2 HL a b Ha Hb0). apply (linked_step _ _ a a b); [now apply linked_refl|exact Hb0|now left]. }
      assert (D : value T i i <> 1%num -> exists k, k < n /\ k <> i /\ lab i = lab k).
      { intros H1. destruct (row_other n (value T) i Hi (Hsum i Hi) H1) as (k & Hk & Hki & HT0). exists k. split; [exact Hk|]. split; [exact Hki|]. apply Q; auto. }
      destruct (Nat.eq_dec i j) as [<-|Hne]; [rewrite Nat.eqb_refl in E; apply D; tauto|]. rewrite (proj2 (Nat.eqb_neq i j) Hne) in E.
      exists j. split; [exact Hj|]. split; [congruence|]. destruct E as [E|E]; [now apply Q|]. symmetry. apply Q; auto. }
    destruct G as (Hi' & j & Hj & Hne & HLab). apply nz_In. split; [exact Hi'|]. exists j. split; [exact Hj|]. left. rewrite (proj2 (Nat.eqb_neq i j) (fun E => Hne (eq_sym E))). rewrite HP by assumption.
    rewrite (stationary_value n lab T i j HT Hi' Hj), HLab, Nat.eqb_refl. assert (Hp : (0 < qn (degs_of T j))%num) by (rewrite <- qn_0; apply qn_lt; now apply Hdeg).
    assert (Hq : (qn (degs_of T j) <= sumN n (fun k => if lab k =? lab j then qn (degs_of T k) else 0))%num).
    { rewrite <- (sumN_delta n j (fun k => qn (degs_of T k)) Hj) at 1. apply sumL_le. intros k Hk. destruct (Nat.eqb_spec k j) as [->|]; [rewrite Nat.eqb_refl; apply Qcle_refl|]. destruct (_ =? _); [|apply Qcle_refl]. rewrite <- qn_0. apply qn_le. lia. }
    intros E. assert (Hne0 : sumN n (fun k => if lab k =? lab j then qn (degs_of T k) else 0%num) <> 0%num) by (intros E0; rewrite E0 in Hq; qlra).
    assert (E' : qn (degs_of T j) = 0%num) by (transitivity (qn (degs_of T j) / sumN n (fun k => if lab k =? lab j then qn (degs_of T k) else 0) * sumN n (fun k => if lab k =? lab j then qn (degs_of T k) else 0))%num; [field; exact Hne0|rewrite E; ring]). rewrite E' in Hp. revert Hp. apply Qcle_not_lt, Qcle_refl.
Qed.
Lemma used_same_nz n L : used_rowcols n L = nz_rowcols_of n (csr_of_dense n (mminus ident L)) 1%num.
Proof.
  destruct (csr_of_dense_spec n (mminus ident L)) as (HT & HV & _). apply sorted_same; [apply used_sorted|apply (nz_rowcols_spec n)|]. intros i. rewrite used_In, nz_In.
  assert (E : forall a b, a < n -> b < n -> value (csr_of_dense n (mminus ident L)) a b <> (if a =? b then 1%num else 0%num) <-> L a b <> 0%num).
  { intros a b Ha Hb. rewrite HV by assumption. unfold mminus, ident. split; intros H E; apply H; [rewrite E; destruct (a =? b); ring|]. destruct (a =? b); qlra. }
  split; intros [Hi H]; (split; [exact Hi|]).
  - unfold used in H. apply orb_true_iff in H. destruct H as [H|H]; apply existsb_exists in H; destruct H as (j & Hj & H); apply in_seq in Hj; exists j; (split; [lia|]); apply neqb_ne in H; [left; apply E; auto; lia|right; rewrite Nat.eqb_sym; apply E; auto; lia].
  - destruct H as (j & Hj & [H|H]); [apply (used_true n L i j Hj); now apply E|]. rewrite Nat.eqb_sym in H. apply E in H; [|assumption|assumption]. destruct (used n L i) eqn:EU; [reflexivity|]. exfalso. apply H. apply (used_false n L i Hi EU j Hj).
Qed.
