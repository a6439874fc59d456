(** Other implementations, mutual information, forms of the arguments, averages. *)
From Verif Require Import Base PartitionModel PartitionSpec PartitionProofs InfoModel InfoSpec InfoProofs InfoNviProofs.
From Coq Require Import Lra.
Local Open Scope R_scope.

(** * Intersection by merging *)
Lemma insert_nat_perm x l : Permutation (insert_nat x l) (x :: l).
Proof.
  induction l as [|y l IH]; [reflexivity|]. cbn [insert_nat]. destruct (x <=? y)%nat; [reflexivity|]. rewrite IH. apply perm_swap.
Qed.
Lemma sort_nat_perm l : Permutation (sort_nat l) l.
Proof. induction l as [|x l IH]; [constructor|]. cbn [sort_nat fold_right]. rewrite insert_nat_perm. now constructor. Qed.
Lemma insert_nat_sorted x l : StronglySorted lt l -> ~ In x l -> StronglySorted lt (insert_nat x l).
Proof.
  induction l as [|y l IH]; intros H Hn; [repeat constructor|]. cbn [insert_nat]. apply StronglySorted_inv in H. destruct H as [H F].
  destruct (Nat.leb_spec x y).
  - assert (x < y)%nat by (cut (x <> y); [lia|]; intros ->; apply Hn; now left).
    constructor; [now constructor|]. constructor; [assumption|]. eapply Forall_impl; [|exact F]. cbn. intros; lia.
  - constructor; [apply IH; [assumption|]; intros G; apply Hn; now right|].
    rewrite Forall_forall in *. intros z Hz. apply (Permutation_in z (insert_nat_perm x l)) in Hz. destruct Hz as [<-|Hz]; [lia|now apply F].
Qed.
Lemma sort_nat_sorted l : NoDup l -> StronglySorted lt (sort_nat l).
Proof.
  induction l as [|x l IH]; intros H; [constructor|]. apply NoDup_cons_iff in H. cbn [sort_nat fold_right].
  apply insert_nat_sorted; [now apply IH|]. intros Hin. apply (Permutation_in x (sort_nat_perm l)) in Hin. tauto.
Qed.
Lemma inter_len_cons a l m : inter_len (a :: l) m = ((if memb a m then 1 else 0) + inter_len l m)%nat.
Proof. unfold inter_len. cbn [filter]. destruct (memb a m); reflexivity. Qed.
Lemma inter_len_ext l m m' : (forall x, In x l -> memb x m = memb x m') -> inter_len l m = inter_len l m'.
Proof. intros H. unfold inter_len. f_equal. now apply filter_ext_in. Qed.
Lemma merge_len_spec f : forall l1 l2 k, StronglySorted lt l1 -> StronglySorted lt l2 ->
  (length l1 + length l2 <= f)%nat -> merge_len f l1 l2 k = (k + inter_len l1 l2)%nat.
Proof.
  induction f as [|f IH]; intros l1 l2 k S1 S2 H.
  - destruct l1, l2; cbn [length] in H; try lia. cbn. lia.
  - cbn [merge_len]. destruct l1 as [|a r1]; [cbn; lia|]. destruct l2 as [|b r2].
    + assert (E : inter_len (a :: r1) [] = 0%nat).
      { clear. unfold inter_len. induction (a :: r1) as [|z l IHl]; [reflexivity|]. exact IHl. }
      rewrite E. lia.
    + pose proof S1 as S1'. pose proof S2 as S2'. apply StronglySorted_inv in S1', S2'. destruct S1' as [T1 F1], S2' as [T2 F2].
      rewrite Forall_forall in F1, F2. cbn [length] in H.
      rewrite inter_len_cons. destruct (Nat.eqb_spec a b) as [<-|Hab]; [|destruct (Nat.ltb_spec a b)].
      * rewrite IH by (try assumption; lia). replace (memb a (a :: r2)) with true by (symmetry; apply memb_In; now left).
        rewrite (inter_len_ext r1 (a :: r2) r2); [lia|]. intros x Hx. specialize (F1 x Hx).
        apply eq_true_iff_eq. rewrite !memb_In. cbn [In]. split; [intros [E|E]; [lia|exact E]|tauto].
      * rewrite IH by (try assumption; cbn [length]; lia).
        replace (memb a (b :: r2)) with false; [lia|]. symmetry. apply memb_false. intros [E|E]; [lia|]. specialize (F2 a E). lia.
      * rewrite IH by (try assumption; cbn [length]; lia). rewrite inter_len_cons.
        assert (Ea : memb a r2 = memb a (b :: r2)).
        { apply eq_true_iff_eq. rewrite !memb_In. cbn [In]. split; [tauto|]. intros [E|E]; [lia|exact E]. }
        rewrite Ea, (inter_len_ext r1 r2 (b :: r2)); [lia|]. intros x Hx. specialize (F1 x Hx).
        apply eq_true_iff_eq. rewrite !memb_In. cbn [In]. split; [tauto|]. intros [E|E]; [lia|exact E].
Qed.
Lemma inter_len_perm l l' m m' : Permutation l l' -> Permutation m m' -> inter_len l m = inter_len l' m'.
Proof.
  intros H1 H2. rewrite (inter_len_ext l m m').
  - unfold inter_len. apply Permutation_length. induction H1 as [|x l l' H IH|x y l|l l' l'' H IH H' IH']; cbn [filter].
    + constructor.
    + destruct (memb x m'); [now constructor|assumption].
    + destruct (memb y m'), (memb x m'); try reflexivity. apply perm_swap.
    + now rewrite IH.
  - intros x _. apply eq_true_iff_eq. rewrite !memb_In. split; apply Permutation_in; [exact H2|now apply Permutation_sym].
Qed.
Lemma sorted_inter_spec c1 c2 : NoDup c1 -> NoDup c2 -> sorted_inter_len (sort_nat c1) (sort_nat c2) = inter_len c1 c2.
Proof.
  intros H1 H2. unfold sorted_inter_len. rewrite merge_len_spec by (try apply sort_nat_sorted; try assumption; lia).
  rewrite Nat.add_0_l. apply inter_len_perm; apply sort_nat_perm.
Qed.
Lemma nvi_vectors_spec P Q N : Forall (@NoDup nat) P -> Forall (@NoDup nat) Q -> (1 < N)%nat ->
  nvi_vectors P Q N = Some (vi_sum P Q / (INR N * log2 (INR N))).
Proof.
  intros HP HQ HN. unfold nvi_vectors. destruct (Nat.leb_spec N 1); [lia|]. do 2 f_equal.
  rewrite Forall_forall in HP, HQ.
  rewrite (sumR_fold_in _ (fun c1 => sumR (vi_pair c1) Q)); [unfold vi_sum; lra|].
  intros s c1 Hc1. apply sumR_fold_in. intros v c2 Hc2. rewrite vi_step_term. unfold vi_pair. now rewrite sorted_inter_spec by auto.
Qed.

(** * Indices in one array *)
Lemma indptr_nth P : forall k i, (i <= length P)%nat -> nth i (indptr_from k P) 0%nat = (k + length (concat (firstn i P)))%nat.
Proof.
  induction P as [|c P IH]; intros k i Hi; cbn [length] in Hi.
  - replace i with 0%nat by lia. simpl. lia.
  - destruct i as [|i]; [simpl; lia|]. cbn [indptr_from nth firstn concat]. rewrite IH by lia. rewrite app_length. lia.
Qed.
Lemma slice_cluster P r : forall i k pre, (i < length P)%nat -> length pre = k ->
  slice_nat (pre ++ concat P ++ r) (nth i (indptr_from k P) 0%nat) (nth (S i) (indptr_from k P) 0%nat) = nth i P [].
Proof.
  induction P as [|c P IH]; intros i k pre Hi Hk; cbn [length] in Hi; [lia|].
  destruct i as [|i].
  - cbn [indptr_from nth]. destruct P as [|d P]; cbn [indptr_from nth]; unfold slice_nat;
      replace (k + length c - k)%nat with (length c) by lia; rewrite <- Hk, skipn_app, skipn_all, Nat.sub_diag; cbn [app skipn concat];
      rewrite <- ?app_assoc; rewrite firstn_app, Nat.sub_diag, firstn_all; cbn [firstn]; now rewrite app_nil_r.
  - cbn [indptr_from nth]. change (nth (S i) (indptr_from (k + length c) P) 0%nat) with (nth (S i) (indptr_from (k + length c) P) 0%nat).
    specialize (IH i (k + length c)%nat (pre ++ c)). cbn [concat]. rewrite <- !app_assoc in *. apply IH; [lia|].
    rewrite app_length. lia.
Qed.
Lemma sumR_seq {A} (f : A -> R) l d : sumR (fun i => f (nth i l d)) (seq 0 (length l)) = sumR f l.
Proof.
  enough (E : map (fun i => nth i l d) (seq 0 (length l)) = l).
  { rewrite <- E at 2. now rewrite sumR_map. }
  apply nth_ext with d d; [now rewrite map_length, seq_length|]. intros n Hn. rewrite map_length, seq_length in Hn.
  rewrite (nth_indep _ d ((fun i => nth i l d) 0%nat)) by (now rewrite map_length, seq_length).
  rewrite (map_nth (fun i => nth i l d)), seq_nth by assumption. reflexivity.
Qed.
Lemma nvi_mat_spec P Q N : NoDup (concat P) -> NoDup (concat Q) -> (length (concat P) <= N)%nat -> (length (concat Q) <= N)%nat ->
  (1 < N)%nat -> nvi_mat P Q N = Some (vi_sum P Q / (INR N * log2 (INR N))).
Proof.
  intros HP HQ LP LQ HN. unfold nvi_mat, fill_indices.
  destruct (Nat.leb_spec (length (concat P)) N); [|lia]. destruct (Nat.leb_spec (length (concat Q)) N); [|lia].
  cbv zeta. destruct (Nat.leb_spec N 1); [lia|]. do 2 f_equal.
  assert (ND : forall (R : list (list nat)) i, NoDup (concat R) -> (i < length R)%nat -> NoDup (nth i R [])).
  { intros R i HR Hi. apply NoDup_concat_iff in HR. destruct HR as [HR _]. rewrite Forall_forall in HR. apply HR, nth_In, Hi. }
  assert (SL : forall R r i, (i < length R)%nat ->
    slice_nat (concat R ++ r) (nth i (indptr_from 0 R) 0%nat) (nth (S i) (indptr_from 0 R) 0%nat) = nth i R []).
  { intros R r i Hi. apply (slice_cluster R r i 0 []); [exact Hi|reflexivity]. }
  assert (LN : forall R i, (i < length R)%nat -> (nth (S i) (indptr_from 0 R) 0 - nth i (indptr_from 0 R) 0)%nat = length (nth i R [])).
  { intros R i Hi. rewrite !indptr_nth by lia. replace (firstn (S i) R) with (firstn i R ++ [nth i R []]).
    - rewrite concat_app, app_length. simpl. rewrite app_nil_r. lia.
    - clear - Hi. revert i Hi. induction R as [|c R IH]; intros i Hi; cbn [length] in Hi; [lia|].
      destruct i as [|i]; [reflexivity|]. cbn [firstn app nth]. f_equal. apply IH. lia. }
  rewrite (sumR_fold_in _ (fun i => sumR (vi_pair (nth i P [])) Q)).
  - rewrite (sumR_seq (fun c => sumR (vi_pair c) Q) P []). unfold vi_sum. lra.
  - intros s i Hi. apply seq_In_iff in Hi. rewrite <- (sumR_seq (vi_pair (nth i P [])) Q []).
    apply sumR_fold_in. intros v j Hj. apply seq_In_iff in Hj.
    rewrite vi_step_term, !LN, !SL, sorted_inter_spec by (try assumption; now apply ND). reflexivity.
Qed.
(** * The parallel version *)
Lemma nvi_parallel_spec init P Q N : (1 < N)%nat ->
  nvi_parallel init P Q N = Some ((sumR init (seq 0 (length P)) + vi_sum P Q) / (INR N * log2 (INR N))).
Proof.
  intros HN. unfold nvi_parallel. destruct (Nat.leb_spec N 1); [lia|]. do 2 f_equal.
  rewrite (sumR_fold_in _ (fun i => init i + sumR (vi_pair (nth i P [])) Q)).
  - rewrite sumR_add, (sumR_seq (fun c => sumR (vi_pair c) Q) P []). unfold vi_sum. lra.
  - intros s i _. f_equal. apply sumR_fold_in. intros v c2 _. rewrite vi_step_term. reflexivity.
Qed.

(** * Mutual information *)
Definition plogp (p : R) : R := if Req_EM_T p 0 then 0 else - (p * log2 p).
Lemma entropy_of_sum ps : entropy_of ps = sumR plogp ps.
Proof.
  unfold entropy_of. rewrite (sumR_fold _ plogp); [lra|]. intros s p. unfold plogp. destruct (Req_EM_T p 0); lra.
Qed.
Lemma plogp_count k N : (0 < N)%nat ->
  plogp (INR k / INR N) = if (0 <? k)%nat then INR k * (ln (INR N / INR k) / (INR N * ln 2)) else 0.
Proof.
  intros HN. assert (HN' : 0 < INR N) by now apply lt_0_INR. unfold plogp.
  destruct (Nat.ltb_spec 0 k) as [Hk|Hk].
  - assert (Hk' : 0 < INR k) by now apply lt_0_INR. pose proof (Rdiv_lt_0_compat _ _ Hk' HN').
    destruct (Req_EM_T (INR k / INR N) 0); [lra|]. unfold log2. rewrite !ln_div by assumption. pose proof ln2_pos. field. lra.
  - replace k with 0%nat by lia. simpl. destruct (Req_EM_T (0 / INR N) 0) as [_|E]; [reflexivity|].
    exfalso. apply E. unfold Rdiv. lra.
Qed.
Lemma inter_self c d : incl c d -> inter_len c d = length c.
Proof.
  unfold inter_len. induction c as [|x c IH]; intros H; [reflexivity|]. cbn [filter].
  replace (memb x d) with true by (symmetry; apply memb_In, H; now left). cbn [length]. f_equal. apply IH.
  intros y Hy. apply H. now right.
Qed.
Lemma entropy_nodes V P : covers V P -> (0 < length V)%nat ->
  entropy_of (map (fun c => INR (length c) / INR (length V)) P) = Hc V (rel P) top / (INR (length V) * ln 2).
Proof.
  intros HP HV. rewrite entropy_of_sum, sumR_map. unfold Hc, Rdiv at 2. rewrite <- sumR_scal_r, (sum_nodes V P HP).
  apply sumR_ext. intros c Hc. rewrite plogp_count by assumption. destruct (Nat.ltb_spec 0 (length c)) as [H|H].
  - rewrite <- (sumR_const (ln (INR (length V) / INR (length c)) / (INR (length V) * ln 2)) c).
    apply sumR_ext. intros x Hx. assert (HxV : In x V) by (apply (cover_in V P HP), in_concat; eauto).
    rewrite cnt_top. replace (cnt V (meet (rel P) top) x) with (INR (length c)); [reflexivity|].
    rewrite <- (clu_eq P x c) by (try assumption; apply (cover_nodup V P HP)). rewrite (clu_cnt V P HP x HxV).
    apply cnt_ext. intros y _. unfold meet, top. now rewrite andb_true_r.
  - destruct c; [reflexivity|cbn [length] in H; lia].
Qed.
Lemma joint_entropy_nodes V P Q : covers V P -> covers V Q -> (0 < length V)%nat ->
  entropy_of (flat_map (fun c1 => map (fun c2 => INR (inter_len c1 c2) / INR (length V)) Q) P) =
  (Hc V (rel P) top + Hc V (rel Q) (rel P)) / (INR (length V) * ln 2).
Proof.
  intros HP HQ HV. rewrite entropy_of_sum, sumR_flat_map.
  rewrite (sumR_ext _ (fun c1 => sumR (fun c2 => plogp (INR (inter_len c1 c2) / INR (length V))) Q)) by (intros; apply sumR_map).
  rewrite (pair_sum V P Q (fun c1 c2 => ln (INR (length V) / INR (inter_len c1 c2)) / (INR (length V) * ln 2))
     (fun c1 c2 => plogp (INR (inter_len c1 c2) / INR (length V)))) by (try assumption; intros; now apply plogp_count).
  rewrite (chain V (rel P) (rel Q)) by (now apply rel_equiv). unfold Rdiv at 3. rewrite <- sumR_scal_r.
  apply sumR_ext. intros x Hx. now rewrite (inter_cnt V P Q).
Qed.
(** the entropy is zero exactly for the one_cluster clustering *)
Lemma entropy_zero V P : covers V P -> (Hc V (rel P) top = 0 <-> one_cluster V P).
Proof.
  intros HP. rewrite (Hc_zero V _ _ (rel_equiv V P HP) (top_equiv V)). unfold one_cluster. split.
  - intros H x y Hx Hy. apply (rel_joined V P HP); try assumption. now apply H.
  - intros H x y Hx Hy _. apply (rel_joined V P HP); auto.
Qed.
Definition nmi_val (V : list nat) (P Q : list (list nat)) : R :=
  (Hc V (rel P) top - Hc V (rel P) (rel Q)) / Rmax (Hc V (rel P) top) (Hc V (rel Q) top).
Lemma chain_sym V r s : equiv_on V r -> equiv_on V s -> Hc V r top - Hc V r s = Hc V s top - Hc V s r.
Proof.
  intros Hr Hs. pose proof (chain V r s Hr Hs) as H1. pose proof (chain V s r Hs Hr) as H2.
  assert (E : sumR (fun x => ln (INR (length V) / cnt V (meet r s) x)) V = sumR (fun x => ln (INR (length V) / cnt V (meet s r) x)) V)
    by (apply sumR_ext; intros; now rewrite meet_sym). lra.
Qed.
Lemma cover_nonempty V P : covers V P -> (0 < length V)%nat -> nonempty P = true.
Proof. intros [_ H] HV. destruct P; [|reflexivity]. apply Permutation_length in H. simpl in H. lia. Qed.
Lemma Rmax_scal a b k : 0 < k -> Rmax (a / k) (b / k) = Rmax a b / k.
Proof.
  intros Hk. assert (I : 0 < / k) by now apply Rinv_0_lt_compat. unfold Rdiv. rewrite !(Rmult_comm _ (/ k)), RmaxRmult by lra. reflexivity.
Qed.
Lemma nmi_lists_spec V P Q : covers V P -> covers V Q -> (0 < length V)%nat ->
  (one_cluster V P -> one_cluster V Q -> nmi_lists P Q = None) /\
  (~ (one_cluster V P /\ one_cluster V Q) -> nmi_lists P Q = Some (nmi_val V P Q)).
Proof.
  intros HP HQ HV. unfold nmi_lists. rewrite (cover_nonempty V P), (cover_nonempty V Q) by assumption. cbn [andb].
  rewrite (cover_total V P HP). unfold cython_nmi. destruct (Nat.eqb_spec (length V) 0); [lia|].
  cbv zeta. rewrite (joint_entropy_nodes V P Q), (entropy_nodes V P), (entropy_nodes V Q) by assumption.
  pose proof ln2_pos as L. assert (HN : 0 < INR (length V)) by now apply lt_0_INR.
  pose proof (Rmult_lt_0_compat _ _ HN L) as K. rewrite Rmax_scal by assumption.
  pose proof (rel_equiv V P HP) as EP. pose proof (rel_equiv V Q HQ) as EQ.
  pose proof (Hc_nonneg V _ _ EP (top_equiv V)) as N1. pose proof (Hc_nonneg V _ _ EQ (top_equiv V)) as N2.
  pose proof (Rmax_l (Hc V (rel P) top) (Hc V (rel Q) top)) as M1. pose proof (Rmax_r (Hc V (rel P) top) (Hc V (rel Q) top)) as M2.
  split.
  - intros T1 T2. apply (entropy_zero V P HP) in T1. apply (entropy_zero V Q HQ) in T2. rewrite T1, T2.
    destruct (Req_EM_T (Rmax 0 0 / (INR (length V) * ln 2)) 0) as [_|F]; [reflexivity|]. exfalso. apply F.
    rewrite Rmax_left by lra. unfold Rdiv. lra.
  - intros T. assert (M : Rmax (Hc V (rel P) top) (Hc V (rel Q) top) <> 0).
    { intros E. apply T. split; [apply (entropy_zero V P HP)|apply (entropy_zero V Q HQ)]; lra. }
    destruct (Req_EM_T (Rmax (Hc V (rel P) top) (Hc V (rel Q) top) / (INR (length V) * ln 2)) 0) as [F|_].
    + exfalso. apply M. apply Rmult_eq_reg_r with (/ (INR (length V) * ln 2)); [rewrite Rmult_0_l; exact F|].
      apply Rinv_neq_0_compat. lra.
    + f_equal. unfold nmi_val. rewrite (chain_sym V (rel P) (rel Q)) by assumption. field. repeat split; try assumption; lra.
Qed.
Lemma nmi_props V P Q : covers V P -> covers V Q -> ~ (one_cluster V P /\ one_cluster V Q) ->
  nmi_val V P Q = nmi_val V Q P /\ 0 <= nmi_val V P Q <= 1 /\ (nmi_val V P Q = 1 <-> same_clustering P Q).
Proof.
  intros HP HQ T.
  pose proof (rel_equiv V P HP) as EP. pose proof (rel_equiv V Q HQ) as EQ.
  pose proof (Hc_nonneg V _ _ EP (top_equiv V)) as N1. pose proof (Hc_nonneg V _ _ EQ (top_equiv V)) as N2.
  pose proof (Hc_nonneg V _ _ EP EQ) as N3. pose proof (Hc_nonneg V _ _ EQ EP) as N4.
  pose proof (Rmax_l (Hc V (rel P) top) (Hc V (rel Q) top)) as M1. pose proof (Rmax_r (Hc V (rel P) top) (Hc V (rel Q) top)) as M2.
  pose proof (Hc_le_top V _ _ EP EQ) as U. pose proof (chain_sym V (rel P) (rel Q) EP EQ) as C.
  assert (M : 0 < Rmax (Hc V (rel P) top) (Hc V (rel Q) top)).
  { destruct (Req_dec (Rmax (Hc V (rel P) top) (Hc V (rel Q) top)) 0); [|lra].
    exfalso. apply T. split; [apply (entropy_zero V P HP)|apply (entropy_zero V Q HQ)]; lra. }
  assert (I : 0 < / Rmax (Hc V (rel P) top) (Hc V (rel Q) top)) by now apply Rinv_0_lt_compat.
  unfold nmi_val. split; [|split; [split|]].
  - rewrite C, (Rmax_comm (Hc V (rel Q) top)). reflexivity.
  - apply Rmult_le_pos; lra.
  - apply Rmult_le_reg_r with (Rmax (Hc V (rel P) top) (Hc V (rel Q) top)); [assumption|].
    unfold Rdiv. rewrite Rmult_assoc, Rinv_l by lra. lra.
  - split.
    + intros E. assert (E' : Hc V (rel P) top - Hc V (rel P) (rel Q) = Rmax (Hc V (rel P) top) (Hc V (rel Q) top)).
      { apply Rmult_eq_reg_r with (/ Rmax (Hc V (rel P) top) (Hc V (rel Q) top)); [|lra]. rewrite Rinv_r by lra. exact E. }
      assert (Z1 : Hc V (rel P) (rel Q) = 0) by lra. assert (Z2 : Hc V (rel Q) (rel P) = 0) by lra.
      apply (same_rel V P Q HP HQ). intros x y Hx Hy. apply eq_true_iff_eq.
      split; intros F; [apply (proj1 (Hc_zero V _ _ EQ EP) Z2)|apply (proj1 (Hc_zero V _ _ EP EQ) Z1)]; assumption.
    + intros S. pose proof (vi_same V P Q HP HQ S) as Z. unfold vi_val in Z.
      assert (Z1 : Hc V (rel P) (rel Q) = 0) by lra. assert (Z2 : Hc V (rel Q) (rel P) = 0) by lra.
      rewrite Z1. assert (E : Hc V (rel P) top = Hc V (rel Q) top) by lra. rewrite <- E, Rmax_left in * by lra. unfold Rdiv.
      rewrite Rminus_0_r. apply Rinv_r. lra.
Qed.
Lemma nmi_val_same V P Q P' Q' : covers V P -> covers V Q -> covers V P' -> covers V Q' ->
  same_clustering P P' -> same_clustering Q Q' -> nmi_val V P Q = nmi_val V P' Q'.
Proof.
  intros HP HQ HP' HQ' H1 H2. pose proof (proj1 (same_rel V P P' HP HP') H1) as E1.
  pose proof (proj1 (same_rel V Q Q' HQ HQ') H2) as E2. unfold nmi_val.
  rewrite (Hc_ext V (rel P) top (rel P') top), (Hc_ext V (rel Q) top (rel Q') top), (Hc_ext V (rel P) (rel Q) (rel P') (rel Q'))
    by (try assumption; reflexivity). reflexivity.
Qed.

(** * Forms of the arguments *)
Lemma joined_index P x y : joined P x y <-> exists i, in_cluster P i x /\ in_cluster P i y.
Proof.
  split.
  - intros (c & Hc & Hx & Hy). destruct (In_nth_error _ _ Hc) as [i Hi]. exists i. split; exists c; auto.
  - intros (i & (c & Hc & Hx) & (d & Hd & Hy)). exists c. assert (c = d) by congruence. subst d.
    split; [eapply nth_error_In; eauto|auto].
Qed.
Lemma to_list_spec V a : arg_covers V a -> (0 < length V)%nat ->
  exists cl, to_list a = Some cl /\ covers V cl /\ (forall x y, joined cl x y <-> arg_joined a x y) /\
    (arg_no_gap a -> ~ In [] cl).
Proof.
  intros HV L. destruct a as [cl|d|p]; cbn [arg_covers to_list arg_joined arg_no_gap] in *.
  - exists cl. split; [reflexivity|]. split; [exact HV|]. split; [reflexivity|tauto].
  - destruct HV as [HN HP]. destruct (dict_max d) as [m|] eqn:Em.
    2:{ destruct d; [|discriminate]. apply Permutation_length in HP. simpl in HP. lia. }
    assert (Hm : forall kv, In kv d -> (snd kv <= m)%nat) by (intros kv; now apply dict_max_ge).
    assert (Hk : NoDup (keys d)) by (eapply Permutation_NoDup; [apply Permutation_sym; exact HP|exact HN]).
    pose proof (lists_of_dict_spec m d Hk Hm) as HS.
    exists (lists_of_dict m d). split; [reflexivity|]. split; [split; [exact HN|]|split].
    + apply NoDup_Permutation; [|exact HN|].
      * apply NoDup_concat_iff. split; [apply lists_of_dict_NoDup|]. intros i j x Hi Hj. apply HS in Hi, Hj. congruence.
      * intros x. rewrite <- in_cluster_concat. transitivity (In x (keys d)).
        -- rewrite dget_some_key. split; intros [i Hi]; exists i; now apply HS.
        -- split; apply Permutation_in; [exact HP|now apply Permutation_sym].
    + intros x y. rewrite joined_index. split; intros (i & H1 & H2); exists i; (split; apply HS; assumption).
    + intros HG Hin. destruct (In_nth_error _ _ Hin) as [j Hj].
      assert (Lj : (j < length (lists_of_dict m d))%nat) by (apply nth_error_Some; congruence).
      unfold lists_of_dict in Lj. rewrite lists_fold_length, repeat_length in Lj.
      destruct (dict_max_In d m Em) as [k Hmk]. destruct (HG k m j Hmk ltac:(lia)) as [y Hy].
      apply (dget_In d y j Hk) in Hy. apply HS in Hy. destruct Hy as (c & Hc & Hyc).
      assert (c = []) by congruence. subst c. destruct Hyc.
  - destruct HV as [Hv ->]. exists (cluster_list p). split; [reflexivity|]. split; [split; [apply seq_NoDup|now apply valid_perm]|].
    split; [|tauto]. intros x y. rewrite joined_index. reflexivity.
Qed.
Lemma nvi_args V a b P Q N : arg_covers V a -> arg_covers V b -> arg_no_gap a -> arg_no_gap b -> (2 <= length V)%nat ->
  covers V P -> covers V Q -> (forall x y, joined P x y <-> arg_joined a x y) -> (forall x y, joined Q x y <-> arg_joined b x y) ->
  (N = None \/ N = Some (length V)) -> norm_var_information a b N = Some (nvi_val V P Q).
Proof.
  intros Ha Hb Ga Gb HV HP HQ JP JQ HN. unfold norm_var_information.
  destruct (to_list_spec V a Ha ltac:(lia)) as (cl1 & -> & C1 & J1 & E1).
  destruct (to_list_spec V b Hb ltac:(lia)) as (cl2 & -> & C2 & J2 & E2).
  assert (Q1 : partition_of V cl1) by (split; [apply C1|split; [apply C1|auto]]).
  assert (Q2 : partition_of V cl2) by (split; [apply C2|split; [apply C2|auto]]).
  rewrite (nvi_lists_spec V cl1 cl2 N) by assumption.
  f_equal. unfold nvi_val. rewrite (vi_val_same V cl1 cl2 P Q); try assumption; [reflexivity| |].
  - intros x y. now rewrite J1, JP.
  - intros x y. now rewrite J2, JQ.
Qed.
Lemma same_triv V P Q : same_clustering P Q -> one_cluster V P -> one_cluster V Q.
Proof. intros H T x y Hx Hy. apply H. now apply T. Qed.
Lemma covers_triv_dec V P : covers V P -> one_cluster V P \/ ~ one_cluster V P.
Proof.
  intros HP. destruct (Req_dec (Hc V (rel P) top) 0) as [E|E]; rewrite (entropy_zero V P HP) in E; auto.
Qed.
Lemma nmi_lists_same V P Q P' Q' : covers V P -> covers V Q -> covers V P' -> covers V Q' -> (0 < length V)%nat ->
  same_clustering P P' -> same_clustering Q Q' -> nmi_lists P Q = nmi_lists P' Q'.
Proof.
  intros HP HQ HP' HQ' HV H1 H2.
  destruct (nmi_lists_spec V P Q HP HQ HV) as [A1 A2]. destruct (nmi_lists_spec V P' Q' HP' HQ' HV) as [B1 B2].
  destruct (covers_triv_dec V P HP) as [T1|T1], (covers_triv_dec V Q HQ) as [T2|T2].
  1: rewrite A1 by assumption; symmetry; apply B1; eapply same_triv; eassumption.
  all: rewrite A2 by tauto; rewrite B2; [f_equal; now apply nmi_val_same|];
    intros [F1 F2]; apply (same_triv V _ _ (same_sym _ _ H1)) in F1; apply (same_triv V _ _ (same_sym _ _ H2)) in F2; tauto.
Qed.

(** * Averages *)
Lemma pairs_of_length {A} (l : list A) : length (pairs_of l) = (length l * (length l - 1) / 2)%nat.
Proof.
  enough (E : (2 * length (pairs_of l) = length l * (length l - 1))%nat).
  { rewrite <- E, Nat.mul_comm. symmetry. apply Nat.div_mul. lia. }
  induction l as [|a l IH]; [reflexivity|]. cbn [pairs_of]. rewrite app_length, map_length. cbn [length].
  destruct (length l) as [|n]; [simpl in *; lia|]. replace (S (S n) - 1)%nat with (S n) by lia. replace (S n - 1)%nat with n in IH by lia. nia.
Qed.
Lemma pairs_of_In {A} (l : list A) p : In p (pairs_of l) -> In (fst p) l /\ In (snd p) l.
Proof.
  induction l as [|a l IH]; [intros []|]. cbn [pairs_of]. rewrite in_app_iff, in_map_iff. intros [(b & <- & Hb)|H].
  - split; [now left|now right].
  - apply IH in H. split; right; tauto.
Qed.
Lemma pairs_of_all {A} (l : list A) (R : A -> A -> Prop) : (forall a, In a l -> R a a) -> (forall a b, R a b -> R b a) ->
  (forall p, In p (pairs_of l) -> R (fst p) (snd p)) -> forall a b, In a l -> In b l -> R a b.
Proof.
  intros Hr Hs. induction l as [|c l IH]; intros H a b Ha Hb; [destruct Ha|].
  assert (H1 : forall x, In x l -> R c x).
  { intros x Hx. apply (H (c, x)). cbn [pairs_of]. apply in_or_app. left. apply in_map_iff. eauto. }
  assert (H2 : forall a b, In a l -> In b l -> R a b).
  { apply IH; [intros; apply Hr; now right|]. intros p Hp. apply H. cbn [pairs_of]. apply in_or_app. now right. }
  destruct Ha as [<-|Ha], Hb as [<-|Hb]; auto. apply Hr. now left.
Qed.
Lemma select_from_In {A} idx (l : list A) : forall i a, In a (select_from i idx l) -> In a l.
Proof.
  induction l as [|b l IH]; intros i a; [intros []|]. cbn [select_from]. destruct (memb i idx).
  - intros [<-|H]; [now left|right; eauto].
  - intros H. right; eauto.
Qed.
Lemma select_from_all {A} idx (l : list A) : forall i, (forall k, (i <= k < i + length l)%nat -> In k idx) -> select_from i idx l = l.
Proof.
  induction l as [|b l IH]; intros i H; [reflexivity|]. cbn [select_from]. replace (memb i idx) with true.
  - f_equal. apply IH. intros k Hk. apply H. cbn [length]. lia.
  - symmetry. apply memb_In, H. cbn [length]. lia.
Qed.
Lemma select_from_length {A} (l : list A) : forall i idx, NoDup idx -> (forall k, In k idx -> (i <= k < i + length l)%nat) ->
  length (select_from i idx l) = length idx.
Proof.
  induction l as [|b l IH]; intros i idx Hn H.
  - destruct idx as [|k idx]; [reflexivity|]. specialize (H k (or_introl eq_refl)). cbn [length] in H. lia.
  - cbn [select_from]. assert (G : forall js, (forall k, In k js <-> In k idx /\ k <> i) ->
      select_from (S i) idx l = select_from (S i) js l).
    { intros js Hjs. assert (Hlt : (i < S i)%nat) by lia. revert Hlt. generalize (S i). clear - Hjs. induction l as [|c l IHl]; intros j Hj; [reflexivity|].
      cbn [select_from]. rewrite IHl by lia. replace (memb j js) with (memb j idx); [reflexivity|].
      apply eq_true_iff_eq. rewrite !memb_In, Hjs. split; [intros; split; [assumption|lia]|tauto]. }
    set (js := remove Nat.eq_dec i idx).
    assert (Hjs : forall k, In k js <-> In k idx /\ k <> i).
    { intros k. unfold js. split; [apply in_remove|]. intros [H1 H2]. now apply in_in_remove. }
    rewrite (G js Hjs).
    assert (Hnj : NoDup js).
    { unfold js. clear - Hn. induction Hn as [|x l Hx Hn IH]; [constructor|]. cbn [remove]. destruct (Nat.eq_dec i x); [assumption|].
      constructor; [|assumption]. intros F. apply in_remove in F. tauto. }
    assert (Hlen : length (select_from (S i) js l) = length js).
    { apply IH; [exact Hnj|]. intros k Hk. apply Hjs in Hk. destruct Hk as [Hk Hki]. specialize (H k Hk). cbn [length] in H. lia. }
    destruct (memb i idx) eqn:E.
    + cbn [length]. rewrite Hlen. apply memb_In in E.
      assert (HP : Permutation idx (i :: js)).
      { apply NoDup_Permutation; [exact Hn| |].
        - constructor; [|exact Hnj]. intros F. apply Hjs in F. tauto.
        - intros k. cbn [In]. rewrite Hjs. destruct (Nat.eq_dec i k) as [->|]; [tauto|]. split; [intros; right; split; auto|]. intros [->|[? _]]; tauto. }
      rewrite (Permutation_length HP). reflexivity.
    + rewrite Hlen. apply memb_false in E. f_equal. unfold js. now apply notin_remove.
Qed.
Lemma all_some_map {A B} (f : A -> option B) (g : A -> B) l : (forall a, In a l -> f a = Some (g a)) ->
  all_some (map f l) = Some (map g l).
Proof.
  induction l as [|a l IH]; intros H; [reflexivity|]. cbn [map all_some]. rewrite (H a) by now left.
  rewrite IH; [reflexivity|]. intros; apply H; now right.
Qed.
Lemma fold_plus_sum {A} (g : A -> R) l : fold_right Rplus 0 (map g l) = sumR g l.
Proof. induction l as [|a l IH]; [reflexivity|]. cbn [map fold_right]. now rewrite IH, sumR_cons. Qed.
Lemma avg_nvi_spec V idx cls : (2 <= length V)%nat -> Forall (partition_of V) cls ->
  select_from 0 idx (pairs_of cls) <> [] ->
  let S := select_from 0 idx (pairs_of cls) in
  avg_nvi idx cls = Some (sumR (fun pq => nvi_val V (fst pq) (snd pq)) S / INR (length S)).
Proof.
  intros HV HF Hne S. rewrite Forall_forall in HF.
  assert (HS : forall pq, In pq S -> partition_of V (fst pq) /\ partition_of V (snd pq)).
  { intros pq Hp. apply select_from_In, pairs_of_In in Hp. split; apply HF; tauto. }
  assert (HN : total_len (hd [] cls) = length V).
  { destruct cls as [|P cls]; [exfalso; apply Hne; reflexivity|]. cbn [hd]. apply cover_total, partition_covers, HF. now left. }
  unfold avg_nvi. rewrite HN. fold S.
  rewrite (all_some_map _ (fun pq => nvi_val V (fst pq) (snd pq))).
  - fold S in Hne. destruct S as [|s S']; [congruence|]. cbn [map nonempty]. f_equal. cbn [length]. rewrite map_length.
    rewrite <- (fold_plus_sum (fun pq => nvi_val V (fst pq) (snd pq)) (s :: S')). reflexivity.
  - intros pq Hp. destruct (HS pq Hp). apply nvi_lists_spec; auto.
Qed.
