(** Clustering of saved integrals: C122-C130. *)
From Verif Require Import Base PartitionModel PartitionSpec PartitionProofs LouvainModel LouvainSpec LouvainProofs LouvainProps
  SparseModel SparseSpec SparseProofs AutocovModel AutocovSpec AutocovProofs SparseLouvainModel SparseLouvainSpec
  MatProofs EventsModel EventsSpec TransModel TransSpec TransProps FlowModel FlowSpec FlowProofs CovModel CovSpec CovProofs CovTaskProofs CovProps
  MultiModel MultiSpec ClustModel ClustSpec ClustProofs ClustRunProofs ClustSavedProofs ClustSummaryProofs.
Local Open Scope bool_scope.

(** * C122: what is loaded is what was integrated *)
Lemma loaded_saved n norm M t A : integral_ok n M t -> (forall i, i < n -> sumN n (full_integral n M t i) = (1 / qn n)%num) -> load_autocov n norm M t = Some A ->
  eqm n (toarray A) (integral_of n M t).
Proof.
  intros HI Hr E i j Hi Hj. destruct (load_spec n norm M t HI) as (A' & E' & _ & _ & HT). rewrite E in E'. injection E' as <-.
  rewrite HT by assumption. unfold loaded. rewrite iter_fixed; [|apply HI|now apply full_good|exact Hr|exact Hi|exact Hj].
  rewrite full_symmetrised by apply HI. reflexivity.
Qed.
(** with rounding, the loaded matrix is that of the file, and a covariance; the normalisation
    changes nothing *)
Theorem C122_rounded : forall n tol inter trans inds d norm, 0 < n -> (0 <= tol)%num -> (tol * qn n < 1)%num -> all_slices_ok n inter -> trans_ok n inter trans -> increasing_nat inds ->
  history n tol inter trans inds d ->
  forall m a b x, d_int d m a b = Some x -> exists M t A, x = Whole (M, t) /\ load_autocov n norm M t = Some A /\
    eqm n (toarray A) (integral_of n M t) /\ covariance_like n (toarray A).
Proof.
  intros n tol inter trans inds d norm Hn H0 H1 HS HT HI H m a b x E.
  destruct (C116_covariance n tol inter trans inds d Hn H0 H1 HS HT HI H m a b x E) as (M & t & -> & HH & HC).
  destruct (saved_ok n (inter m) a b M t Hn (HS m) HH) as [HO Hr]. destruct (load_spec n norm M t HO) as (A & EA & _).
  exists M, t, A. split; [reflexivity|]. split; [exact EA|]. assert (HE := loaded_saved n norm M t A HO Hr EA). split; [exact HE|].
  apply (covariance_ext n _ _ (eqm_sym n _ _ HE) HC).
Qed.
(** without rounding it is the average of the covariances *)
Theorem C122_exact : forall n inter trans inds d norm, 0 < n -> all_slices_ok n inter -> trans_ok n inter trans -> increasing_nat inds ->
  history n 0%num inter trans inds d ->
  forall m a b x, d_int d m a b = Some x -> exists M t A, x = Whole (M, t) /\ load_autocov n norm M t = Some A /\
    eqm n (toarray A) (average n (transitions n (walk (inter m) a b)) (walk (inter m) a b)).
Proof.
  intros n inter trans inds d norm Hn HS HT HI H m a b x E.
  assert (H1 : (0 * qn n < 1)%num) by (replace (0 * qn n)%num with 0%num by ring; reflexivity).
  destruct (C122_rounded n 0%num inter trans inds d norm Hn (Qcle_refl _) H1 HS HT HI H m a b x E) as (M & t & A & -> & EA & HE & _).
  destruct (C115_files_right n inter trans inds d Hn HS HT HI H m a b _ E) as (M' & t' & Ex & HA). injection Ex as <- <-.
  exists M, t, A. split; [reflexivity|]. split; [exact EA|]. apply (eqm_trans n _ _ _ HE). apply HA.
Qed.
Definition ex_disk : disk := puts empty_disk (firstn 100 (fst (run_task 2 0%num None true ex_inter ex_trans both ex_inds (0, false) empty_disk))).
Lemma ex_disk_history : history 2 0%num ex_inter ex_trans ex_inds ex_disk.
Proof. apply (history_run _ _ _ _ _ _ EveryStart Both (0, false) both true 100); [apply history_start|cbn; tauto]. Qed.
Example C122_applies : 0 < 2 /\ all_slices_ok 2 ex_inter /\ trans_ok 2 ex_inter ex_trans /\ increasing_nat ex_inds /\ history 2 0%num ex_inter ex_trans ex_inds ex_disk /\
  (exists x, d_int ex_disk Lin 0 3 = Some x) /\ ~ eqm 2 (average 2 (transitions 2 (walk (ex_inter Lin) 0 3)) (walk (ex_inter Lin) 0 3)) (fun _ _ => 0%num).
Proof.
  split; [lia|]. split; [exact ex_slices|]. split; [exact ex_transitions|]. split; [exact ex_increasing|]. split; [exact ex_disk_history|]. split.
  - destruct (d_int ex_disk Lin 0 3) as [x|] eqn:E; [now exists x|]. exfalso. apply (f_equal (fun o => match o with Some _ => true | None => false end)) in E. vm_compute in E. discriminate E.
  - intros H. specialize (H 0 0 ltac:(lia) ltac:(lia)). apply (f_equal (fun q => qeqb q 0%num)) in H. vm_compute in H. discriminate H.
Qed.

(** * C123: after normalisation the covariances sum to zero *)
Theorem C123_sum_zero : forall n norm M t, integral_ok n M t -> 0 < norm ->
  exists A, load_autocov n norm M t = Some A /\ FlowSpec.symmetric n (toarray A) /\ sumN n (fun i => sumN n (toarray A i)) = 0%num.
Proof.
  intros n norm M t HI Hk. destruct (load_spec n norm M t HI) as (A & E & _ & _ & HT). exists A. split; [exact E|].
  assert (Hn : 0 < n) by apply HI. assert (HG : good n (loaded n norm M t)) by (apply iter_good; [exact Hn|now apply full_good]). split.
  - intros i j Hi Hj. rewrite !HT by assumption. now rewrite (proj1 (proj2 HG) i j Hi Hj).
  - rewrite (sumN_ext n _ (fun i => sumN n (loaded n norm M t i) - qn n * (1 / qn n * (1 / qn n)))%num).
    2:{ intros i Hi. rewrite (sumN_ext n (toarray A i) (fun j => loaded n norm M t i j - 1 / qn n * (1 / qn n))%num) by (intros j Hj; now apply HT).
        rewrite sumN_sub. f_equal. unfold sumN. now rewrite sumL_const, seq_length. }
    rewrite sumN_sub. destruct norm as [|k]; [lia|]. unfold loaded. change (sumN n (fun i => sumN n (norm_iter n (S k) (full_integral n M t) i))) with (sumN n (fun i => sumN n (norm_iter n (S k) (full_integral n M t) i))).
    rewrite iter_sum; [|exact Hn|now apply full_good]. unfold sumN. rewrite sumL_const, seq_length. field. apply nonzero_of_pos. rewrite <- qn_0. now apply qn_lt.
Qed.
(** two pairs of nodes, and a node alone *)
Definition pairs (i j : nat) : num := if (i <=? j) && (Nat.div2 i =? Nat.div2 j) then (if j =? 4 then 1 else if i =? 0 then 2 else 1)%num else 0%num.
Lemma pairs_ok : integral_ok 5 pairs 1%num.
Proof.
  split; [lia|]. split; [reflexivity|]. split; [|split].
  - intros i j H. unfold pairs. destruct (Nat.leb_spec i j); [lia|reflexivity].
  - intros i j Hi Hj. unfold pairs. destruct (_ && _); [|apply Qcle_refl]. destruct (j =? 4), (i =? 0); discriminate.
  - intros i Hi. exists i. split; [exact Hi|]. unfold symmetrised, pairs. rewrite !Nat.leb_refl, Nat.eqb_refl. cbn [andb]. destruct (i =? 4), (i =? 0); reflexivity.
Qed.
Example C123_applies : integral_ok 5 pairs 1%num /\ 0 < 10.
Proof. split; [exact pairs_ok|lia]. Qed.

(** * C124: every run gives a partition of the nodes *)
Lemma setup n norm M t A label : integral_ok n M t -> load_autocov n norm M t = Some A -> labels_of n (value (a_PT A)) label ->
  exists PT, usable n PT (PScal (1 / qn n) (1 / qn n)) true A /\ positive_entries PT /\ length label = n /\
    (forall x y, x < n -> y < n -> (0 < value PT x y)%num -> nth x label 0 = nth y label 0) /\
    (forall x y, x < n -> y < n -> nth x label 0 = nth y label 0 <-> linked n (symmetrised M) x y).
Proof.
  intros HI E [HL Hlab]. destruct (load_spec n norm M t HI) as (A' & E' & HU & HP & _). rewrite E in E'. injection E' as <-.
  exists (csr_of n (loaded n norm M t)). destruct (built_inv _ _ _ _ _ (proj1 HU)) as (_ & _ & _ & _ & _ & _ & Hv & _).
  assert (Hs : forall i j, i < n -> j < n -> (0 < value (a_PT A) i j)%num <-> (0 < symmetrised M i j)%num).
  { intros i j Hi Hj. rewrite Hv, csr_of_value by assumption. now apply load_same_links. }
  split; [exact HU|]. split; [exact HP|]. split; [exact HL|]. split.
  - intros x y Hx Hy H. apply Hlab; [exact Hx|exact Hy|]. apply linked_step; [exact Hx|exact Hy|]. now rewrite Hv.
  - intros x y Hx Hy. rewrite Hlab by assumption. split; apply linked_ext; intros i j Hi Hj; [now apply Hs|now symmetry; apply Hs].
Qed.
Lemma Forall2_In_l {X Y} (R : X -> Y -> Prop) l m x : Forall2 R l m -> In x l -> exists y, In y m /\ R x y.
Proof.
  induction 1 as [|a b l m HR HF IH]; intros Hx; [destruct Hx|]. destruct Hx as [<-|Hx]; [exists b; split; [now left|exact HR]|].
  destruct (IH Hx) as (y & Hy & H). exists y. split; [now right|exact H].
Qed.
Lemma Forall2_nth {X Y} (R : X -> Y -> Prop) l m dx dy k : Forall2 R l m -> k < length l -> R (nth k l dx) (nth k m dy).
Proof. intros HF. revert k. induction HF as [|a b l m HR HF IH]; intros k Hk; [cbn in Hk; lia|]. destruct k; [exact HR|]. apply IH. cbn in Hk. lia. Qed.
Lemma Forall2_impl {X Y} (R R' : X -> Y -> Prop) l m : (forall x y, R x y -> R' x y) -> Forall2 R l m -> Forall2 R' l m.
Proof. intros H HF. induction HF; constructor; auto. Qed.
Lemma Forall2_length {X Y} (R : X -> Y -> Prop) l m : Forall2 R l m -> length l = length m.
Proof. induction 1; cbn; congruence. Qed.
Theorem C124_separate : forall setord rng n_meta n_sub n norm M t A label pool seeds, is_iteration_order setord -> (forall s, shuffles (rng s)) ->
  integral_ok n M t -> load_autocov n norm M t = Some A -> labels_of n (value (a_PT A)) label -> seeds <> [] ->
  exists clusters stabs, all_runs setord rng n_meta n_sub SeparateComps pool label A seeds = Some (clusters, stabs, seeds) /\ length clusters = length seeds /\
    forall cl, In cl clusters -> partitions n cl /\ no_empty cl /\ within_components n (symmetrised M) cl.
Proof.
  intros setord rng n_meta n_sub n norm M t A label pool seeds Hso Hrng HI E HLab Hs.
  destruct (setup n norm M t A label HI E HLab) as (PT & HU & HP & HL & Hlink & Hl).
  destruct (separate_runs setord rng n_meta n_sub Hso Hrng n PT A label HU HP HL Hlink) as (K & HK).
  destruct (HK pool seeds Hs) as (clusters & stabs & Er & HF & Hlen). exists clusters, stabs. split; [exact Er|]. split; [exact Hlen|].
  intros cl Hcl. destruct (Forall2_In_l _ _ _ _ HF Hcl) as (r & _ & _ & R1 & R2 & R3). split; [now apply partitions_perm|]. split; [exact R2|].
  intros c x y Hc Hx Hy. assert (Hin : forall z, In z c -> z < n).
  { intros z Hz. assert (X : In z (concat cl)) by (apply in_concat; eauto). apply (Permutation_in _ R1) in X. now apply seq_In_iff. }
  apply Hl; [now apply Hin|now apply Hin|]. now apply (R3 c).
Qed.
(** only nodes without links to others are left out of the search *)
Theorem C124_left_out : forall n norm M t A label, integral_ok n M t -> load_autocov n norm M t = Some A -> labels_of n (value (a_PT A)) label ->
  exists comps alone, load_separate label A = Some (comps, alone) /\
    (forall x, In x alone <-> x < n /\ forall y, y < n -> linked n (symmetrised M) x y -> y = x) /\
    (forall B nodes, In (B, nodes) comps -> 2 <= length nodes /\ NoDup nodes /\
       forall x y, In x nodes -> y < n -> In y nodes <-> linked n (symmetrised M) x y).
Proof.
  intros n norm M t A label HI E HLab.
  destruct (setup n norm M t A label HI E HLab) as (PT & HU & HP & HL & Hlink & Hl).
  destruct (load_separate_spec n PT _ A label (usable_flows _ _ _ _ HU) HP HL Hlink (fun c _ => all_rows n PT A label HU HL c)) as (comps & El & HF). exists comps, (flat_map (nodes_of label) (small label)).
  assert (Hin : forall x c, In x (nodes_of label c) <-> x < n /\ nth x label 0 = c).
  { intros x c. unfold nodes_of. rewrite filter_In, in_seq, HL, Nat.eqb_eq. lia. }
  assert (Hnd : forall c, NoDup (nodes_of label c)) by (intros c; apply NoDup_filter, seq_NoDup).
  split; [exact El|]. split.
  - intros x. rewrite in_flat_map. split.
    + intros (c & Hc & Hx). apply single_nodes in Hc. pose proof (proj1 (Hin x c) Hx) as [Hxn Hxc]. split; [exact Hxn|]. intros y Hy Hxy.
      assert (G : In y (nodes_of label c)) by (apply Hin; split; [exact Hy|]; rewrite <- Hxc; symmetry; now apply Hl).
      rewrite Hc in Hx, G. destruct Hx as [<-|[]], G as [<-|[]]. reflexivity.
    + intros [Hx Ha]. exists (nth x label 0). assert (Hx' : In x (nodes_of label (nth x label 0))) by now apply Hin. split; [|exact Hx'].
      unfold small. apply filter_In. split; [apply (components_In label); intros N; now rewrite N in Hx'|]. unfold is_single. apply Nat.eqb_eq.
      assert (Hall : forall y, In y (nodes_of label (nth x label 0)) -> y = x).
      { intros y Hy. apply Hin in Hy. apply Ha; [apply Hy|]. apply Hl; [exact Hx|apply Hy|]. symmetry. apply Hy. }
      pose proof (Hnd (nth x label 0)) as ND. destruct (nodes_of label (nth x label 0)) as [|a [|b l]]; [destruct Hx'|reflexivity|].
      assert (a = x) by (apply Hall; now left). assert (b = x) by (apply Hall; right; now left). subst. inversion ND. exfalso. apply H1. now left.
  - intros B nodes Hb. assert (G : exists c, In c (large label) /\ nodes = nodes_of label c).
    { clear - HF Hb. induction HF as [|c z l comps [H1 H2] HF IH]; [destruct Hb|]. destruct Hb as [->|Hb]; [exists c; split; [now left|exact H2]|].
      destruct (IH Hb) as (c' & H & H'). exists c'. split; [now right|exact H']. }
    destruct G as (c & Hc & ->). apply filter_In in Hc. destruct Hc as [Hc Hs]. apply (components_In label) in Hc. split; [|split; [apply Hnd|]].
    + unfold is_single in Hs. apply negb_true_iff, Nat.eqb_neq in Hs. destruct (nodes_of label c) as [|a [|b l]]; [now contradict Hc|now contradict Hs|cbn; lia].
    + intros x y Hx Hy. apply Hin in Hx. rewrite Hin, <- Hl; [|apply Hx|exact Hy]. destruct Hx as [Hx <-]. split; [intros [_ H]; now symmetry|intros H; split; [exact Hy|now symmetry]].
Qed.
Theorem C124_all_nodes : forall setord rng n_meta n_sub n norm M t A label pool seeds, is_iteration_order setord -> (forall s, shuffles (rng s)) ->
  integral_ok n M t -> load_autocov n norm M t = Some A -> labels_of n (value (a_PT A)) label -> seeds <> [] ->
  exists clusters stabs, all_runs setord rng n_meta n_sub AllNodes pool label A seeds = Some (clusters, stabs, seeds) /\ length clusters = length seeds /\
    (forall cl, In cl clusters -> partitions n cl /\ no_empty cl) /\
    (forall k, k < length seeds -> nth k stabs 0%num = total (toarray A) (nth k clusters [])).
Proof.
  intros setord rng n_meta n_sub n norm M t A label pool seeds Hso Hrng HI E HLab Hs.
  destruct (setup n norm M t A label HI E HLab) as (PT & HU & HP & HL & Hlink & Hl).
  destruct (all_nodes_runs setord rng n_meta n_sub Hso Hrng n PT A label (proj1 HI) HU pool seeds Hs) as (clusters & stabs & Er & HF & Hlen).
  exists clusters, stabs. split; [exact Er|]. split; [exact Hlen|]. split.
  - intros cl Hcl. destruct (Forall2_In_l _ _ _ _ HF Hcl) as (r & _ & _ & R1 & R2). split; [now apply partitions_perm|exact R2].
  - intros k Hk. rewrite <- Hlen in Hk. exact (proj1 (Forall2_nth _ _ _ [] 0%num k HF Hk)).
Qed.
Lemma labels_from n norm M t A label : integral_ok n M t -> load_autocov n norm M t = Some A -> length label = n ->
  forallb (fun x => forallb (fun y => Bool.eqb (nth x label 0 =? nth y label 0) (qltb 0%num (symmetrised M x y) || (x =? y))) (seq 0 n)) (seq 0 n) = true ->
  labels_of n (value (a_PT A)) label.
Proof.
  intros HI E HL HB. split; [exact HL|]. destruct (load_spec n norm M t HI) as (A' & E' & HU & _). rewrite E in E'. injection E' as <-.
  destruct (built_inv _ _ _ _ _ (proj1 HU)) as (_ & _ & _ & _ & _ & _ & Hv & _).
  assert (Hs : forall i j, i < n -> j < n -> (0 < value (a_PT A) i j)%num <-> (0 < symmetrised M i j)%num).
  { intros i j Hi Hj. rewrite Hv, csr_of_value by assumption. now apply load_same_links. }
  assert (HB' : forall x y, x < n -> y < n -> nth x label 0 = nth y label 0 <-> (0 < symmetrised M x y)%num \/ x = y).
  { intros x y Hx Hy. rewrite forallb_forall in HB. specialize (HB x (proj2 (seq_In_iff n x) Hx)). cbv beta in HB. rewrite forallb_forall in HB. specialize (HB y (proj2 (seq_In_iff n y) Hy)). cbv beta in HB.
    apply Bool.eqb_prop in HB. destruct (Nat.eqb_spec (nth x label 0) (nth y label 0)), (qltb_spec 0%num (symmetrised M x y)), (Nat.eqb_spec x y); cbn [orb] in HB; try discriminate; tauto. }
  intros x y Hx Hy. split.
  - intros H. apply HB' in H; [|exact Hx|exact Hy]. destruct H as [H|<-]; [|apply rst_refl]. apply linked_step; [exact Hx|exact Hy|]. now apply Hs.
  - intros H. clear Hx Hy. induction H as [a b (Ha & Hb & Hp)|a|a b _ IH|a b c _ IH1 _ IH2]; [|reflexivity|now symmetry|congruence]. apply HB'; [exact Ha|exact Hb|]. left. now apply Hs.
Qed.
Definition pair_labels : list nat := [0; 0; 1; 1; 2].
Lemma pair_labels_ok norm A : load_autocov 5 norm pairs 1%num = Some A -> labels_of 5 (value (a_PT A)) pair_labels.
Proof. intros E. apply (labels_from 5 norm pairs 1%num A pair_labels pairs_ok E eq_refl). now vm_compute. Qed.
Lemma keep_ok : is_iteration_order keep_order. Proof. intros l. apply Permutation_refl. Qed.
Lemma in_order_ok : forall s : nat, shuffles ((fun _ => LouvainProps.in_order) s). Proof. intros s level k n. apply Permutation_refl. Qed.
Example C124_applies : is_iteration_order keep_order /\ (forall s : nat, shuffles ((fun _ => LouvainProps.in_order) s)) /\ integral_ok 5 pairs 1%num /\
  exists A, load_autocov 5 3 pairs 1%num = Some A /\ labels_of 5 (value (a_PT A)) pair_labels.
Proof.
  split; [exact keep_ok|]. split; [exact in_order_ok|]. split; [exact pairs_ok|]. destruct (load_spec 5 3 pairs 1%num pairs_ok) as (A & E & _). exists A. split; [exact E|]. now apply (pair_labels_ok 3).
Qed.

(** * C125: the stabilities reported with --separate_comps *)
Definition C125_statement : Prop := forall setord rng n_meta n_sub n norm M t A label pool seeds clusters stabs, is_iteration_order setord -> (forall s, shuffles (rng s)) ->
  integral_ok n M t -> load_autocov n norm M t = Some A -> labels_of n (value (a_PT A)) label ->
  all_runs setord rng n_meta n_sub SeparateComps pool label A seeds = Some (clusters, stabs, seeds) ->
  forall k, k < length seeds -> nth k stabs 0%num = total (toarray A) (nth k clusters []).
Theorem C125_reported_refuted : ~ C125_statement.
Proof.
  intros H. destruct (load_spec 5 1 pairs 1%num pairs_ok) as (A & E & _). assert (HLab := pair_labels_ok 1 A E).
  destruct (C124_separate keep_order (fun _ => LouvainProps.in_order) 10 10 5 1 pairs 1%num A pair_labels false [7] keep_ok in_order_ok pairs_ok E HLab ltac:(discriminate)) as (clusters & stabs & Er & _).
  specialize (H keep_order (fun _ => LouvainProps.in_order) 10 10 5 1 pairs 1%num A pair_labels false [7] clusters stabs keep_ok in_order_ok pairs_ok E HLab Er 0 ltac:(cbn; lia)).
  assert (X : match load_autocov 5 1 pairs 1%num with
              | Some A => match all_runs keep_order (fun _ => LouvainProps.in_order) 10 10 SeparateComps false pair_labels A [7] with
                          | Some (clusters, stabs, _) => qeqb (nth 0 stabs 0%num) (total (toarray A) (nth 0 clusters []))
                          | None => true
                          end
              | None => true
              end = false) by now vm_compute.
  rewrite E, Er in X. destruct (qeqb_spec (nth 0 stabs 0%num) (total (toarray A) (nth 0 clusters []))); [discriminate|contradiction].
Qed.
(** they are off by a constant, the same for all the runs *)
Theorem C125_constant_partial : forall setord rng n_meta n_sub n norm M t A label, is_iteration_order setord -> (forall s, shuffles (rng s)) ->
  integral_ok n M t -> load_autocov n norm M t = Some A -> labels_of n (value (a_PT A)) label ->
  exists K, forall pool seeds clusters stabs seeds', all_runs setord rng n_meta n_sub SeparateComps pool label A seeds = Some (clusters, stabs, seeds') ->
  forall k, k < length seeds -> nth k stabs 0%num = (total (toarray A) (nth k clusters []) + K)%num.
Proof.
  intros setord rng n_meta n_sub n norm M t A label Hso Hrng HI E HLab.
  destruct (setup n norm M t A label HI E HLab) as (PT & HU & HP & HL & Hlink & Hl).
  destruct (separate_runs setord rng n_meta n_sub Hso Hrng n PT A label HU HP HL Hlink) as (K & HK). exists K. intros pool seeds clusters stabs seeds' Er k Hk.
  destruct (HK pool seeds ltac:(now destruct seeds; [cbn in Hk; lia|])) as (clusters' & stabs' & Er' & HF & Hlen). rewrite Er in Er'. injection Er' as -> -> ->.
  rewrite <- Hlen in Hk. exact (proj1 (Forall2_nth _ _ _ [] 0%num k HF Hk)).
Qed.

(** * C126: the best run *)
(** stability of the partition of a run: with --only_largest_comp, of all the nodes *)
Definition true_total (o : comps_option) (label : list nat) (A : autocov) (cl : list (list nat)) : num :=
  match o with
  | OnlyLargest => total (toarray A) (unfolded (nodes_outside label (largest_comp label)) (nodes_of label (largest_comp label)) cl)
  | _ => total (toarray A) cl
  end.
Theorem C126_best : forall setord rng n_meta n_sub n norm M t A label o pool seeds, is_iteration_order setord -> (forall s, shuffles (rng s)) ->
  integral_ok n M t -> load_autocov n norm M t = Some A -> labels_of n (value (a_PT A)) label -> seeds <> [] ->
  exists clusters stabs, all_runs setord rng n_meta n_sub o pool label A seeds = Some (clusters, stabs, seeds) /\
  let s := summarise (clusters, stabs, seeds) in
  exists k, k < length seeds /\ r_best s = nth k clusters [] /\ r_best_stab s = nth k stabs 0%num /\
  forall j, j < length seeds -> (nth j stabs 0 <= r_best_stab s)%num /\ (true_total o label A (nth j clusters []) <= true_total o label A (r_best s))%num.
Proof.
  intros setord rng n_meta n_sub n norm M t A label o pool seeds Hso Hrng HI E HLab Hs.
  destruct (setup n norm M t A label HI E HLab) as (PT & HU & HP & HL & Hlink & Hl).
  assert (G : exists K clusters stabs, all_runs setord rng n_meta n_sub o pool label A seeds = Some (clusters, stabs, seeds) /\
    Forall2 (fun cl r => r = (true_total o label A cl + K)%num) clusters stabs /\ length clusters = length seeds).
  { destruct o.
    - destruct (all_nodes_runs setord rng n_meta n_sub Hso Hrng n PT A label (proj1 HI) HU pool seeds Hs) as (clusters & stabs & Er & HF & Hlen).
      exists 0%num, clusters, stabs. split; [exact Er|]. split; [|exact Hlen]. refine (Forall2_impl _ _ _ _ _ HF). intros cl r (-> & _). cbn [true_total]. ring.
    - destruct (largest_runs setord rng n_meta n_sub Hso Hrng n PT A label HU HP HL Hlink pool seeds (largest_nonempty n label (proj1 HI) HL) Hs) as (B & _ & clusters & stabs & Er & HF & Hlen).
      exists 0%num, clusters, stabs. split; [exact Er|]. split; [|exact Hlen]. refine (Forall2_impl _ _ _ _ _ HF). intros cl r (-> & _). cbn [true_total]. ring.
    - destruct (separate_runs setord rng n_meta n_sub Hso Hrng n PT A label HU HP HL Hlink) as (K & HK). destruct (HK pool seeds Hs) as (clusters & stabs & Er & HF & Hlen).
      exists K, clusters, stabs. split; [exact Er|]. split; [|exact Hlen]. refine (Forall2_impl _ _ _ _ _ HF). intros cl r (-> & _). cbn [true_total]. ring. }
  destruct G as (K & clusters & stabs & Er & HF & Hlen). exists clusters, stabs. split; [exact Er|]. cbv zeta. cbn [summarise r_best r_best_stab].
  assert (Hst : length stabs = length seeds) by (rewrite <- Hlen; symmetry; exact (Forall2_length _ _ _ HF)).
  destruct (argmax_spec stabs) as (K1 & K2 & K3). { intros N. rewrite N in Hst. destruct seeds; [congruence|discriminate]. }
  exists (argmax stabs). rewrite Hst in K1. split; [exact K1|]. split; [reflexivity|]. split; [now symmetry|]. intros j Hj.
  assert (H1 : (nth j stabs 0 <= max_of stabs)%num) by (apply K3, nth_In; lia). split; [exact H1|].
  assert (Ej := Forall2_nth _ _ _ [] 0%num j HF). assert (Ek := Forall2_nth _ _ _ [] 0%num (argmax stabs) HF). cbv beta in Ej, Ek.
  rewrite Ej, <- K2, Ek in H1 by lia. revert H1. generalize (true_total o label A (nth j clusters [])) (true_total o label A (nth (argmax stabs) clusters [])). intros a b. qlra.
Qed.
(** what is saved beside the best run: stabilities and seeds in the order of the runs, and the
    averages over the runs *)
Theorem C126_averages : forall clusters stabs seeds, length clusters = length seeds -> length stabs = length seeds -> seeds <> [] ->
  let s := summarise (clusters, stabs, seeds) in
  r_seeds s = seeds /\ r_stabilities s = stabs /\
  (qn (length seeds) * r_avg_stab s = sumN (length seeds) (fun k => nth k stabs 0))%num /\
  (qn (length seeds) * r_avg_nclust s = sumN (length seeds) (fun k => qn (length (nth k clusters []))))%num.
Proof.
  intros clusters stabs seeds H1 H2 H3 s. split; [reflexivity|]. split; [reflexivity|].
  assert (Hm : forall l : list num, length l = length seeds -> (qn (length seeds) * mean l = sumL (fun x => x) l)%num).
  { intros l Hl. unfold mean. rewrite Hl. field. intros E. assert (Hp : (0 < qn (length seeds))%num) by (rewrite <- qn_0; apply qn_lt; destruct seeds; [congruence|cbn; lia]). rewrite E in Hp. revert Hp. apply Qcle_not_lt, Qcle_refl. }
  split; unfold s; cbn [summarise r_avg_stab r_avg_nclust].
  - rewrite Hm by exact H2. rewrite (sumL_nth stabs _ 0%num), H2. reflexivity.
  - rewrite Hm by (now rewrite map_length). rewrite sumL_map, (sumL_nth clusters _ []), H1. reflexivity.
Qed.
Example C126_applies : exists A, load_autocov 5 3 pairs 1%num = Some A /\ labels_of 5 (value (a_PT A)) pair_labels /\
  let r := all_runs keep_order (fun s _ _ n => if Nat.even s then seq 0 n else rev (seq 0 n)) 10 10 SeparateComps false pair_labels A [0; 1; 2] in
  match r with Some (c, _, _) => length c | None => 0 end = 3.
Proof. destruct (load_autocov 5 3 pairs 1%num) as [A|] eqn:E; [|vm_compute in E; discriminate E]. exists A. split; [reflexivity|]. split; [now apply (pair_labels_ok 3)|].
  destruct (C124_separate keep_order (fun s _ _ n => if Nat.even s then seq 0 n else rev (seq 0 n)) 10 10 5 3 pairs 1%num A pair_labels false [0; 1; 2] keep_ok) as (c & st & -> & Hl & _); [|exact pairs_ok|exact E|now apply (pair_labels_ok 3)|discriminate|exact Hl].
  intros s level k m. cbv beta. destruct (Nat.even s); [apply Permutation_refl|apply Permutation_sym, Permutation_rev].
Qed.

(** * C127: --only_largest_comp *)
(** node 0 stands for all the nodes outside of the component: no node of the component shares
    its cluster *)
Definition C127_statement : Prop := forall setord rng n_meta n_sub n norm M t A label pool seeds clusters stabs, is_iteration_order setord -> (forall s, shuffles (rng s)) ->
  integral_ok n M t -> load_autocov n norm M t = Some A -> labels_of n (value (a_PT A)) label ->
  all_runs setord rng n_meta n_sub OnlyLargest pool label A seeds = Some (clusters, stabs, seeds) ->
  forall cl c, In cl clusters -> In c cl -> In 0 c -> c = [0].
(** two pairs of nodes; with --not_normalize_cov_mat *)
Definition pairs4 (i j : nat) : num := if (i <=? j) && (Nat.div2 i =? Nat.div2 j) then 1%num else 0%num.
Lemma pairs4_ok : integral_ok 4 pairs4 1%num.
Proof.
  split; [lia|]. split; [reflexivity|]. split; [|split].
  - intros i j H. unfold pairs4. destruct (Nat.leb_spec i j); [lia|reflexivity].
  - intros i j Hi Hj. unfold pairs4. destruct (_ && _); discriminate.
  - intros i Hi. exists i. split; [exact Hi|]. unfold symmetrised, pairs4. rewrite !Nat.leb_refl, Nat.eqb_refl. reflexivity.
Qed.
Theorem C127_alone_refuted : ~ C127_statement.
Proof.
  intros H. destruct (load_spec 4 0 pairs4 1%num pairs4_ok) as (A & E & _).
  assert (HLab : labels_of 4 (value (a_PT A)) [0; 0; 1; 1]) by (apply (labels_from 4 0 pairs4 1%num A [0; 0; 1; 1] pairs4_ok E eq_refl); now vm_compute).
  assert (X : match load_autocov 4 0 pairs4 1%num with
              | Some A => match all_runs keep_order (fun _ => LouvainProps.in_order) 10 10 OnlyLargest false [0; 0; 1; 1] A [7] with
                          | Some ([[[0; 1; 2]]], _, [7]) => true
                          | _ => false
                          end
              | None => false
              end = true) by now vm_compute.
  rewrite E in X. destruct (all_runs keep_order (fun _ => LouvainProps.in_order) 10 10 OnlyLargest false [0; 0; 1; 1] A [7]) as [[[clusters stabs] sd]|] eqn:Er; [|discriminate X].
  assert (Ec : clusters = [[[0; 1; 2]]] /\ sd = [7]).
  { repeat match type of X with context [match ?x with _ => _ end] => is_var x; destruct x; try discriminate X end. split; reflexivity. }
  destruct Ec as [-> ->].
  specialize (H keep_order (fun _ => LouvainProps.in_order) 10 10 4 0 pairs4 1%num A [0; 0; 1; 1] false [7] _ stabs keep_ok in_order_ok pairs4_ok E HLab Er [[0; 1; 2]] [0; 1; 2] (or_introl eq_refl) (or_introl eq_refl) (or_introl eq_refl)).
  discriminate H.
Qed.
Theorem C127_largest_partial : forall setord rng n_meta n_sub n norm M t A label pool seeds, is_iteration_order setord -> (forall s, shuffles (rng s)) ->
  integral_ok n M t -> load_autocov n norm M t = Some A -> labels_of n (value (a_PT A)) label -> seeds <> [] ->
  exists nodes outside B, load_largest label A = Some (nodes, B) /\ Permutation (outside ++ nodes) (seq 0 n) /\
  (exists x, x < n /\ forall y, In y nodes <-> y < n /\ linked n (symmetrised M) x y) /\
  (forall l, NoDup l -> (forall x, In x l -> x < n) -> (forall x y, In x l -> In y l -> linked n (symmetrised M) x y) -> length l <= length nodes) /\
  exists clusters stabs, all_runs setord rng n_meta n_sub OnlyLargest pool label A seeds = Some (clusters, stabs, seeds) /\ length clusters = length seeds /\
  forall k, k < length seeds -> let cl := nth k clusters [] in
    partitions (S (length nodes)) cl /\ no_empty cl /\ partitions n (unfolded outside nodes cl) /\
    nth k stabs 0%num = total (toarray A) (unfolded outside nodes cl) /\
    (is_all_zeros B = false -> exists rest, cl = [0] :: rest).
Proof.
  intros setord rng n_meta n_sub n norm M t A label pool seeds Hso Hrng HI E HLab Hs.
  destruct (setup n norm M t A label HI E HLab) as (PT & HU & HP & HL & Hlink & Hl). assert (Hn : 0 < n) by apply HI.
  assert (Hne := largest_nonempty n label Hn HL).
  destruct (largest_runs setord rng n_meta n_sub Hso Hrng n PT A label HU HP HL Hlink pool seeds Hne Hs) as (B & EB & clusters & stabs & Er & HF & Hlen).
  set (c := largest_comp label) in *. exists (nodes_of label c), (nodes_outside label c), B. split; [exact EB|]. split; [|split; [|split]].
  - assert (Hp := idx_list_partitions label c). apply partitions_perm in Hp. rewrite HL in Hp. unfold idx_list in Hp. cbn [concat] in Hp.
    assert (Eq : concat (map (fun i => [i]) (nodes_of label c)) = nodes_of label c) by (generalize (nodes_of label c); intros l; induction l as [|x l IH]; [reflexivity|]; cbn; now rewrite IH).
    now rewrite Eq in Hp.
  - destruct (nodes_of label c) as [|x l] eqn:En; [contradiction|]. assert (Hx : In x (nodes_of label c)) by (rewrite En; now left). apply nodes_of_In in Hx. rewrite HL in Hx. destruct Hx as [Hx Hcx].
    exists x. split; [exact Hx|]. intros y. rewrite <- En, nodes_of_In, HL. split; intros [Hy H]; (split; [exact Hy|]).
    + apply Hl; [exact Hx|exact Hy|congruence].
    + apply Hl in H; [congruence|exact Hx|exact Hy].
  - intros l Hnd Hin Hll. destruct l as [|x l]; [cbn; lia|].
    apply Nat.le_trans with (length (nodes_of label (nth x label 0))); [|exact (largest_spec n label Hn HL _)].
    apply NoDup_incl_length; [exact Hnd|]. intros y Hy. apply nodes_of_In. rewrite HL. split; [now apply Hin|]. apply Hl; [now apply Hin|apply Hin; now left|]. apply Hll; [exact Hy|now left].
  - exists clusters, stabs. split; [exact Er|]. split; [exact Hlen|]. intros k Hk. rewrite <- Hlen in Hk.
    destruct (Forall2_nth _ _ _ [] 0%num k HF Hk) as (R1 & R2 & R3 & R4 & R5). cbv zeta. split; [now apply partitions_perm|]. split; [exact R4|]. split; [now apply partitions_perm|]. split; [exact R1|exact R5].
Qed.
Example C127_applies : exists A, load_autocov 5 3 pairs 1%num = Some A /\ labels_of 5 (value (a_PT A)) pair_labels /\
  exists B, load_largest pair_labels A = Some ([0; 1], B) /\ is_all_zeros B = false.
Proof.
  destruct (load_spec 5 3 pairs 1%num pairs_ok) as (A & E & _). exists A. split; [exact E|]. split; [now apply (pair_labels_ok 3)|].
  assert (X : match load_autocov 5 3 pairs 1%num with Some A => match load_largest pair_labels A with Some ([0; 1], B) => negb (is_all_zeros B) | _ => false end | None => false end = true) by now vm_compute.
  rewrite E in X. destruct (load_largest pair_labels A) as [[nodes B]|]; [|discriminate X]. exists B.
  repeat match type of X with context [match ?x with _ => _ end] => is_var x; destruct x; try discriminate X end. split; [reflexivity|]. now destruct (is_all_zeros B).
Qed.

(** * C128: the counts of the partitions *)
Theorem C128_counter : forall n clusters, (forall cl, In cl clusters -> partitions n cl /\ no_empty cl) ->
  (forall k m, In (k, m) (clust_counter clusters) -> exists runs, NoDup runs /\ length runs = m /\ forall i, In i runs <-> i < length clusters /\ same_partition k (nth i clusters [])) /\
  (forall cl, In cl clusters -> exists k m, In (k, m) (clust_counter clusters) /\ same_partition k cl /\
     forall k' m', In (k', m') (clust_counter clusters) -> same_partition k' cl -> k' = k /\ m' = m).
Proof.
  intros n clusters HV. unfold clust_counter. destruct (counter_spec (map canonical clusters)) as (HN & HK & HC).
  assert (Hnd : forall cl, In cl clusters -> NoDup (concat cl)).
  { intros cl Hcl. destruct (HV cl Hcl) as [Hp _]. apply partitions_perm in Hp. apply (Permutation_NoDup (Permutation_sym Hp)). apply seq_NoDup. }
  assert (Heq : forall a b, In a clusters -> In b clusters -> same_partition (canonical a) b <-> canonical a = canonical b).
  { intros a b Ha Hb. split.
    - intros H. apply canonical_complete; [now apply Hnd|now apply Hnd|now apply HV|now apply HV|]. apply (same_partition_trans _ (canonical a)); [apply same_partition_sym, canonical_same|exact H].
    - intros ->. apply canonical_same. }
  assert (Hkey : forall k m, In (k, m) (counter (map canonical clusters)) -> exists a, In a clusters /\ k = canonical a).
  { intros k m H. apply (in_map fst) in H. cbn [fst] in H. apply HK in H. apply in_map_iff in H. destruct H as (a & E & Ha). exists a. auto. }
  split.
  - intros k m H. destruct (Hkey k m H) as (a & Ha & Ek). rewrite (HC k m H).
    exists (filter (fun i => if key_dec (canonical (nth i clusters [])) k then true else false) (seq 0 (length clusters))).
    split; [apply NoDup_filter, seq_NoDup|]. split.
    + replace (map canonical clusters) with (map (fun i => canonical (nth i clusters [])) (seq 0 (length clusters))) by (rewrite <- (map_map (fun i => nth i clusters []) canonical), map_nth_seq; reflexivity). generalize (seq 0 (length clusters)). intros l. induction l as [|i l IH]; [reflexivity|].
      cbn [filter map count_occ]. destruct (key_dec (canonical (nth i clusters [])) k); [cbn [length]; f_equal|]; exact IH.
    + intros i. rewrite filter_In, seq_In_iff. destruct (key_dec (canonical (nth i clusters [])) k) as [Ei|Ei].
      * split; [intros [Hi _]; split; [exact Hi|]|intros [Hi _]; split; [exact Hi|reflexivity]]. rewrite <- Ei. apply canonical_same.
      * split; [intros [_ Hx]; discriminate|]. intros [Hi Hsame]. exfalso. apply Ei. subst k. symmetry. apply Heq; [exact Ha|now apply nth_In|exact Hsame].
  - intros cl Hcl. assert (Hin : In (canonical cl) (map fst (counter (map canonical clusters)))) by (apply HK; now apply in_map).
    apply in_map_iff in Hin. destruct Hin as ([k m] & Ek & Hin). cbn [fst] in Ek. subst k. exists (canonical cl), m. split; [exact Hin|]. split; [apply canonical_same|].
    intros k' m' Hin' Hsame. destruct (Hkey k' m' Hin') as (a & Ha & ->). apply Heq in Hsame; [|exact Ha|exact Hcl]. split; [exact Hsame|].
    rewrite (HC _ _ Hin), (HC _ _ Hin'), Hsame. reflexivity.
Qed.
Example C128_applies : (forall cl, In cl [[[0; 2]; [1]]; [[1]; [2; 0]]; [[0; 1]; [2]]] -> partitions 3 cl /\ no_empty cl) /\
  clust_counter [[[0; 2]; [1]]; [[1]; [2; 0]]; [[0; 1]; [2]]] = [([[0; 2]; [1]], 2); ([[0; 1]; [2]], 1)].
Proof.
  split; [|reflexivity]. intros cl [<-|[<-|[<-|[]]]]; (split; [now apply partitionsb_sound|repeat constructor; discriminate]).
Qed.

(** * C129: --nproc_clustering *)
Theorem C129_same_results : forall setord rng n_meta n_sub n norm M t A label o seeds, is_iteration_order setord -> (forall s, shuffles (rng s)) ->
  integral_ok n M t -> load_autocov n norm M t = Some A -> labels_of n (value (a_PT A)) label ->
  all_runs setord rng n_meta n_sub o true label A seeds = all_runs setord rng n_meta n_sub o false label A seeds.
Proof.
  intros setord rng n_meta n_sub n norm M t A label o seeds Hso Hrng HI E HLab.
  destruct (setup n norm M t A label HI E HLab) as (PT & HU & HP & HL & Hlink & Hl). exact (pool_runs setord rng n_meta n_sub Hso Hrng n PT A label (proj1 HI) HU HP HL Hlink o seeds).
Qed.
Example C129_applies : exists A, load_autocov 5 3 pairs 1%num = Some A /\ labels_of 5 (value (a_PT A)) pair_labels.
Proof. destruct (load_spec 5 3 pairs 1%num pairs_ok) as (A & E & _). exists A. split; [exact E|]. now apply (pair_labels_ok 3). Qed.

(** * C130: starting again *)
Definition C130_statement : Prop := forall d b s, file_history true d -> f_saved (fold_left apply (worker b (Some s) d) d) <> None.
Theorem C130_temporary_refuted : ~ C130_statement.
Proof.
  intros H. set (s := mkSummary [] [] [] [] 0%num 0%num 0%num).
  apply (H (mkResults None (Some s)) true s); [|reflexivity].
  exact (files_run true (mkResults None None) true (Some s) 1 (files_start true) (fun _ => eq_refl)).
Qed.
(** without --save_clustering_before_nvarinf *)
Theorem C130_restart_partial : forall d b s, file_history false d -> f_saved (fold_left apply (worker b (Some s) d) d) <> None.
Proof.
  intros d b s H. assert (Ht := history_no_temp d H). unfold worker. rewrite Ht. destruct (f_saved d) eqn:E; [cbn [fold_left]; rewrite E; discriminate|]. destruct b; discriminate.
Qed.
(** saved results are kept *)
Theorem C130_kept : forall d b c q x, f_saved d = Some x -> fold_left apply (firstn q (worker b c d)) d = d.
Proof. intros d b c q x E. unfold worker. rewrite E. now destruct q. Qed.
(** an interrupted run never leaves a result of another run than itself *)
Theorem C130_own : forall d b c q x, f_saved d = None -> f_saved (fold_left apply (firstn q (worker b c d)) d) = Some x -> c = Some x.
Proof.
  intros d b c q x E. unfold worker. rewrite E. destruct (f_temp d); [destruct q; cbn [firstn fold_left]; congruence|]. destruct c as [s|]; [|destruct q; cbn [firstn fold_left]; congruence].
  destruct b, q as [|[|[|q]]]; cbn [firstn fold_left app apply f_saved]; congruence.
Qed.
Example C130_applies : exists d, file_history false d /\ f_saved d = None.
Proof. exists (mkResults None None). split; [apply files_start|reflexivity]. Qed.

Print Assumptions C122_rounded.
Print Assumptions C122_exact.
Print Assumptions C123_sum_zero.
Print Assumptions C124_separate.
Print Assumptions C124_all_nodes.
Print Assumptions C125_reported_refuted.
Print Assumptions C125_constant_partial.
Print Assumptions C126_best.
Print Assumptions C126_averages.
Print Assumptions C127_alone_refuted.
Print Assumptions C127_largest_partial.
Print Assumptions C128_counter.
Print Assumptions C129_same_results.
Print Assumptions C130_temporary_refuted.
Print Assumptions C130_restart_partial.
Print Assumptions C130_kept.
Print Assumptions C130_own.
