(** Variation of information of the clusterings of an integral: C169-C171. *)
From Verif Require Import InfoModel.
From Coq Require Import Lra.
From Verif Require Import InfoSpec InfoNviProofs InfoProps.
From Verif Require Import Base PartitionModel PartitionSpec PartitionProofs LouvainModel LouvainSpec LouvainProps
  SparseModel SparseSpec SparseProofs AutocovModel AutocovSpec AutocovProofs EventsModel EventsSpec TransModel TransSpec
  FlowModel FlowSpec CovModel CovSpec MultiModel MultiSpec ClustModel ClustSpec ClustProofs ClustRunProofs ClustSavedProofs ClustProps
  InitModel InitSpec InitProofs InitProps FlowGridProofs NviModel NviSpec NviProofs.
Local Open Scope nat_scope.

(** * C169: variation of information of the runs *)
Lemma all_nodes_size n norm M t A : integral_ok n M t -> load_autocov n norm M t = Some A -> a_size A = n.
Proof. intros HI E. destruct (load_spec n norm M t HI) as (A' & E' & HU & _). rewrite E in E'. injection E' as <-. apply (built_inv _ _ _ _ _ (proj1 HU)). Qed.
Lemma largest_size n norm M t A label nodes B : integral_ok n M t -> load_autocov n norm M t = Some A -> labels_of n (value (a_PT A)) label ->
  load_largest label A = Some (nodes, B) -> nodes = nodes_of label (largest_comp label) /\ a_size B = S (length nodes).
Proof.
  intros HI E HLab EB. destruct (setup n norm M t A label HI E HLab) as (PT & HU & HP & HL & Hlink & _). assert (Hn : 0 < n) by apply HI.
  destruct (comp_meta n PT _ A label (usable_flows _ _ _ _ HU) HP HL Hlink (largest_comp label) (largest_nonempty n label Hn HL) (all_rows n PT A label HU HL _)) as (PT' & p' & B' & E' & HB & _).
  unfold load_largest in EB. rewrite E' in EB. injection EB as <- <-. split; [reflexivity|]. apply (built_inv _ _ _ _ _ (proj1 HB)).
Qed.
Theorem C169_runs : forall o setord rng n_meta n_sub n norm M t A label pool seeds asked idx, is_iteration_order setord -> (forall s, shuffles (rng s)) ->
  integral_ok n M t -> load_autocov n norm M t = Some A -> labels_of n (value (a_PT A)) label -> 2 <= n -> 2 <= length seeds -> asked <> Some 0 ->
  drawn idx (num_varinf_samples asked (length seeds)) (length seeds * (length seeds - 1) / 2) ->
  exists clusters stabs, all_runs setord rng n_meta n_sub o pool label A seeds = Some (clusters, stabs, seeds) /\ length clusters = length seeds /\
  exists N, (forall cl, In cl clusters -> length (concat cl) = N) /\ exists v, worker_nvi o label A idx clusters = Some v /\ reports asked N clusters v.
Proof.
  intros o setord rng n_meta n_sub n norm M t A label pool seeds asked idx Hso Hrng HI E HLab Hn Hs Ha Hd.
  assert (Hne : seeds <> []) by (intros ->; cbn in Hs; lia).
  assert (X : exists clusters stabs N, all_runs setord rng n_meta n_sub o pool label A seeds = Some (clusters, stabs, seeds) /\ length clusters = length seeds /\ 2 <= N /\
    matrix_size o label A = Some N /\ forall cl, In cl clusters -> partitions N cl /\ no_empty cl).
  { destruct o.
    - destruct (C124_all_nodes setord rng n_meta n_sub n norm M t A label pool seeds Hso Hrng HI E HLab Hne) as (clusters & stabs & Er & Hl & HP & _).
      exists clusters, stabs, n. split; [exact Er|]. split; [exact Hl|]. split; [exact Hn|]. split; [|exact HP]. cbn [matrix_size]. f_equal. exact (all_nodes_size _ _ _ _ _ HI E).
    - destruct (C127_largest_partial setord rng n_meta n_sub n norm M t A label pool seeds Hso Hrng HI E HLab Hne) as (nodes & outside & B & EB & _ & (x & Hx & Hxy) & _ & clusters & stabs & Er & Hl & HP).
      destruct (largest_size n norm M t A label nodes B HI E HLab EB) as [_ EN].
      exists clusters, stabs, (S (length nodes)). split; [exact Er|]. split; [exact Hl|]. split.
      + assert (Hin : In x nodes) by (apply Hxy; split; [exact Hx|]; apply rst_refl). destruct nodes; [destruct Hin|cbn; lia].
      + split; [cbn [matrix_size]; rewrite EB; now f_equal|]. intros cl Hcl. apply (In_nth _ _ []) in Hcl. destruct Hcl as (k & Hk & <-). rewrite Hl in Hk. destruct (HP k Hk) as (R1 & R2 & _). now split.
    - destruct (C124_separate setord rng n_meta n_sub n norm M t A label pool seeds Hso Hrng HI E HLab Hne) as (clusters & stabs & Er & Hl & HP).
      exists clusters, stabs, n. split; [exact Er|]. split; [exact Hl|]. split; [exact Hn|]. split; [cbn [matrix_size]; f_equal; exact (all_nodes_size _ _ _ _ _ HI E)|].
      intros cl Hcl. destruct (HP cl Hcl) as (R1 & R2 & _). now split. }
  destruct X as (clusters & stabs & N & Er & Hl & HN & EN & HP). exists clusters, stabs. split; [exact Er|]. split; [exact Hl|]. exists N. split.
  - intros cl Hcl. destruct (HP cl Hcl) as [R _]. apply partitions_perm in R. rewrite (Permutation_length R). apply seq_length.
  - apply (worker_reports (seq 0 N)); try assumption.
    + rewrite seq_length. lia.
    + apply Forall_forall. intros cl Hcl. destruct (HP cl Hcl). now apply partitions_of.
    + lia.
    + now rewrite Hl.
Qed.
(** of one run there is no mean *)
Theorem C169_one_run : forall o label A idx cl, worker_nvi o label A idx [cl] = None.
Proof. intros o label A idx cl. unfold worker_nvi. destruct (matrix_size o label A); reflexivity. Qed.
(** with a density the nodes that are not visited are left out of the clusterings, and counted in the largest value *)
Theorem C169_density : forall setord rng n_meta n_sub n compressed rtol norm M t p A label pool seeds asked idx, is_iteration_order setord -> (forall s, shuffles (rng s)) ->
  init_ok n M t p -> (forall r, rtol = Some r -> (0 <= r)%num) -> load_init n compressed rtol norm M t p = Some A -> labels_of n (value (a_PT A)) label -> 2 <= n -> 2 <= length seeds -> asked <> Some 0 ->
  drawn idx (num_varinf_samples asked (length seeds)) (length seeds * (length seeds - 1) / 2) ->
  exists clusters stabs, all_runs_init setord rng n_meta n_sub SeparateComps pool label A seeds = Some (clusters, stabs, seeds) /\ length clusters = length seeds /\
  exists v, worker_nvi SeparateComps label A idx clusters = Some v /\ reports asked n clusters v.
Proof.
  intros setord rng n_meta n_sub n c rtol norm M t p A label pool seeds asked idx Hso Hrng HI Hr E HLab Hn Hs Ha Hd.
  assert (Hne : seeds <> []) by (intros ->; cbn in Hs; lia).
  destruct (C163_separate setord rng n_meta n_sub n c rtol norm M t p A label Hso Hrng HI Hr E HLab) as (K & HK).
  destruct (HK pool seeds Hne) as (clusters & stabs & Er & Hl & HP). exists clusters, stabs. split; [exact Er|]. split; [exact Hl|].
  destruct (load_init_inv n c rtol norm M t p A HI Hr E) as (L & _ & _ & HW & _ & _). assert (EN : a_size A = n) by apply (built_inv _ _ _ _ _ (proj1 HW)).
  set (V := filter (fun x => qltb 0%num (nth x p 0%num)) (seq 0 n)).
  assert (HV : forall x, In x V <-> present n p x).
  { intros x. unfold V, present. rewrite filter_In, seq_In_iff. destruct (qltb_spec 0%num (nth x p 0%num)); intuition discriminate. }
  apply (worker_reports V).
  - cbn [matrix_size]. now f_equal.
  - split.
    + assert (X : exists x, In x V); [|destruct X as (x & Hx); destruct V; [destruct Hx|cbn; lia]].
      pose proof HI as (_ & _ & Hlen & _ & _ & Hp & Hsum & _). destruct V as [|x V'] eqn:EV; [|exists x; now left]. exfalso.
      assert (Z : sumL (fun x => x) p = 0%num); [|rewrite Z in Hsum; discriminate Hsum]. apply sumL_zero. intros a Hin.
      apply Qcle_antisym; [|now apply Hp]. apply Qcnot_lt_le. intros Hlt. apply (In_nth _ _ 0%num) in Hin. destruct Hin as (x & Hx & Ex). apply (HV x). split; [lia|now rewrite Ex].
    + rewrite <- (seq_length n 0). apply NoDup_incl_length; [apply NoDup_filter, seq_NoDup|]. intros x Hx. now apply filter_In in Hx.
  - exact Hn.
  - apply Forall_forall. intros cl Hcl. apply (In_nth _ _ []) in Hcl. destruct Hcl as (k & Hk & <-). rewrite Hl in Hk. destruct (HP k Hk) as (R1 & R2 & R3 & _).
    split; [apply NoDup_filter, seq_NoDup|]. split.
    + apply NoDup_Permutation; [exact R1|apply NoDup_filter, seq_NoDup|]. intros x. now rewrite R2, HV.
    + intros H. unfold no_empty in R3. rewrite Forall_forall in R3. now apply (R3 []).
  - lia.
  - exact Ha.
  - now rewrite Hl.
Qed.

Definition two_ways : list (list (list nat)) := [[[0; 1]; [2]; [3]]; [[0]; [1]; [2; 3]]].
Example C169_applies : integral_ok 5 pairs 1%num /\ (exists A, load_autocov 5 3 pairs 1%num = Some A /\ labels_of 5 (value (a_PT A)) pair_labels) /\
  drawn [2; 0] (num_varinf_samples (Some 2) (length [7; 8; 9])) (length [7; 8; 9] * (length [7; 8; 9] - 1) / 2) /\ drawn [0; 1; 2] (num_varinf_samples (Some 50) 3) (3 * (3 - 1) / 2) /\
  ~ all_same two_ways.
Proof.
  split; [exact pairs_ok|]. split; [destruct (load_spec 5 3 pairs 1%num pairs_ok) as (A & E & _); exists A; split; [exact E|]; now apply (pair_labels_ok 3)|].
  split; [|split].
  - split; [repeat (constructor; [cbn; lia|]); constructor|]. split; [reflexivity|]. intros i [<-|[<-|[]]]; vm_compute; lia.
  - split; [repeat (constructor; [cbn; lia|]); constructor|]. split; [reflexivity|]. intros i [<-|[<-|[<-|[]]]]; vm_compute; lia.
  - intros H. destruct (H [[0; 1]; [2]; [3]] [[0]; [1]; [2; 3]] ltac:(now left) ltac:(right; now left) 0 1) as [H1 _].
    destruct H1 as (c & Hc & H0 & H1); [exists [0; 1]; cbn; auto|]. cbn in Hc. destruct Hc as [<-|[<-|[<-|[]]]]; cbn in *; lia.
Qed.

(** * C170: variation of information of the static clusterings *)
Definition C170_statement : Prop := forall o n norm M t A label cls asked idx, integral_ok n M t -> load_autocov n norm M t = Some A -> labels_of n (value (a_PT A)) label -> 2 <= n ->
  (forall cl, In cl cls -> partitions n cl /\ no_empty cl) -> 2 <= length cls -> asked <> Some 0 -> drawn idx (num_varinf_samples asked (length cls)) (length cls * (length cls - 1) / 2) ->
  exists v, worker_nvi o label A idx cls = Some v /\ reports asked n cls v.
Lemma two_ways_ok : forall cl, In cl two_ways -> partitions 4 cl /\ no_empty cl.
Proof. intros cl [<-|[<-|[]]]; (split; [now apply partitionsb_sound|repeat constructor; discriminate]). Qed.
(** with --only_largest_comp the size is that of the aggregated matrix *)
Theorem C170_largest_refuted : ~ C170_statement.
Proof.
  intros H. destruct (load_spec 4 0 pairs4 1%num pairs4_ok) as (A & E & _).
  assert (HLab : labels_of 4 (value (a_PT A)) [0; 0; 1; 1]) by (apply (labels_from 4 0 pairs4 1%num A [0; 0; 1; 1] pairs4_ok E eq_refl); now vm_compute).
  destruct (H OnlyLargest 4 0 pairs4 1%num A [0; 0; 1; 1] two_ways None [0] pairs4_ok E HLab) as (v & Ev & _ & _ & Hz); [lia|exact two_ways_ok|cbn; lia|discriminate| |].
  { split; [repeat constructor; intros []|]. split; [reflexivity|]. intros i [<-|[]]. vm_compute. lia. }
  destruct (C127_largest_partial keep_order (fun _ => LouvainProps.in_order) 1 1 4 0 pairs4 1%num A [0; 0; 1; 1] false [7] keep_ok in_order_ok pairs4_ok E HLab ltac:(discriminate)) as (nodes & _ & B & EB & _).
  destruct (largest_size 4 0 pairs4 1%num A _ nodes B pairs4_ok E HLab EB) as [En Es].
  assert (E3 : matrix_size OnlyLargest [0; 0; 1; 1] A = Some 3) by (cbn [matrix_size]; rewrite EB, Es, En; reflexivity).
  unfold worker_nvi in Ev. rewrite E3 in Ev. change (parallel_nvi [0] two_ways 3) with (Some [0%R]) in Ev. cbn [nonempty] in Ev.
  assert (V0 : v = 0%R) by (injection Ev as <-; cbn [fold_right length]; change (INR 1) with 1%R; lra).
  apply (Hz eq_refl) in V0. destruct C169_applies as (_ & _ & _ & _ & X). exact (X V0).
Qed.
Theorem C170_static_partial : forall o n norm M t A label cls asked idx, integral_ok n M t -> load_autocov n norm M t = Some A -> labels_of n (value (a_PT A)) label -> 2 <= n ->
  (forall cl, In cl cls -> partitions n cl /\ no_empty cl) -> 2 <= length cls -> asked <> Some 0 -> drawn idx (num_varinf_samples asked (length cls)) (length cls * (length cls - 1) / 2) ->
  match o with
  | AllNodes | SeparateComps => exists v, worker_nvi o label A idx cls = Some v /\ reports asked n cls v
  | OnlyLargest => exists nodes B, load_largest label A = Some (nodes, B) /\
      (n <= S (length nodes) -> exists v, worker_nvi o label A idx cls = Some v /\ reports asked (S (length nodes)) cls v)
  end.
Proof.
  intros o n norm M t A label cls asked idx HI E HLab Hn HP Hm Ha Hd.
  assert (HF : Forall (partition_of (seq 0 n)) cls) by (apply Forall_forall; intros cl Hcl; destruct (HP cl Hcl); now apply partitions_of).
  pose proof (all_nodes_size _ _ _ _ _ HI E) as EN.
  destruct o; try (apply (worker_reports (seq 0 n)); try assumption; [cbn [matrix_size]; now f_equal|rewrite seq_length; lia]).
  destruct (C127_largest_partial keep_order (fun _ => LouvainProps.in_order) 1 1 n norm M t A label false [7] keep_ok in_order_ok HI E HLab ltac:(discriminate)) as (nodes & _ & B & EB & _).
  exists nodes, B. split; [exact EB|]. intros HL. destruct (largest_size n norm M t A label nodes B HI E HLab EB) as [_ Es].
  apply (worker_reports (seq 0 n)); try assumption; [cbn [matrix_size]; rewrite EB; now f_equal|rewrite seq_length; lia|lia].
Qed.
Example C170_applies : integral_ok 4 pairs4 1%num /\ (forall cl, In cl two_ways -> partitions 4 cl /\ no_empty cl) /\ drawn [0] (num_varinf_samples None (length two_ways)) (length two_ways * (length two_ways - 1) / 2).
Proof.
  split; [exact pairs4_ok|]. split; [exact two_ways_ok|]. split; [repeat constructor; intros []|]. split; [reflexivity|]. intros i [<-|[]]. vm_compute. lia.
Qed.

(** * C171: what is saved about the components *)
Definition C171_statement : Prop := forall o n norm M t A label, integral_ok n M t -> load_autocov n norm M t = Some A -> labels_of n (value (a_PT A)) label -> o <> AllNodes ->
  exists saved, s_label (saved_info o label) = Some saved /\ labels_of n (symmetrised M) saved.
(** the labels are never saved *)
Theorem C171_labels_refuted : ~ C171_statement.
Proof.
  intros H. destruct (load_spec 4 0 pairs4 1%num pairs4_ok) as (A & E & _).
  assert (HLab : labels_of 4 (value (a_PT A)) [0; 0; 1; 1]) by (apply (labels_from 4 0 pairs4 1%num A [0; 0; 1; 1] pairs4_ok E eq_refl); now vm_compute).
  destruct (H SeparateComps 4 0 pairs4 1%num A [0; 0; 1; 1] pairs4_ok E HLab ltac:(discriminate)) as (l & El & _). discriminate El.
Qed.
Theorem C171_none_saved : forall o label, s_label (saved_info o label) = None.
Proof. now intros []. Qed.
(** the number of components, and the nodes of the largest one, in increasing order *)
Theorem C171_components_partial : forall o n norm M t A label, integral_ok n M t -> load_autocov n norm M t = Some A -> labels_of n (value (a_PT A)) label ->
  (o <> AllNodes -> exists k reps, s_ncomp (saved_info o label) = Some k /\ length reps = k /\ NoDup reps /\ (forall x, In x reps -> x < n) /\
     (forall x y, In x reps -> In y reps -> linked n (symmetrised M) x y -> x = y) /\ (forall x, x < n -> exists y, In y reps /\ linked n (symmetrised M) x y)) /\
  (o = OnlyLargest -> exists nodes, s_largest (saved_info o label) = Some nodes /\ StronglySorted lt nodes /\
     (exists x, x < n /\ forall y, In y nodes <-> y < n /\ linked n (symmetrised M) x y) /\
     (forall l, NoDup l -> (forall x, In x l -> x < n) -> (forall x y, In x l -> In y l -> linked n (symmetrised M) x y) -> length l <= length nodes)).
Proof.
  intros o n norm M t A label HI E HLab. destruct (setup n norm M t A label HI E HLab) as (PT & _ & _ & HL & _ & Hl). assert (Hn : 0 < n) by apply HI. split.
  - intros Ho. exists (length (components label)).
    set (rep := fun c => hd 0 (nodes_of label c)).
    assert (HR : forall c, In c (components label) -> rep c < n /\ nth (rep c) label 0 = c).
    { intros c Hc. unfold components in Hc. rewrite unique_In in Hc. apply (In_nth _ _ 0) in Hc. destruct Hc as (x & Hx & Ex).
      assert (Hin : In x (nodes_of label c)) by (apply nodes_of_In; now split). unfold rep. destruct (nodes_of label c) as [|y l] eqn:En; [destruct Hin|]. cbn [hd].
      assert (Hy : In y (nodes_of label c)) by (rewrite En; now left). apply nodes_of_In in Hy. now rewrite HL in Hy. }
    exists (map rep (components label)). split; [destruct o; [congruence|reflexivity|reflexivity]|]. split; [apply map_length|].
    assert (Hinj : forall x y, In x (map rep (components label)) -> In y (map rep (components label)) -> nth x label 0 = nth y label 0 -> x = y).
    { intros x y Hx Hy Ee. apply in_map_iff in Hx. destruct Hx as (c & <- & Hc). apply in_map_iff in Hy. destruct Hy as (d & <- & Hd).
      rewrite (proj2 (HR c Hc)), (proj2 (HR d Hd)) in Ee. now subst. }
    assert (Hlt : forall x, In x (map rep (components label)) -> x < n) by (intros x Hx; apply in_map_iff in Hx; destruct Hx as (c & <- & Hc); now apply HR).
    split; [|split; [exact Hlt|split]].
    + apply (NoDup_map_inv (fun x => nth x label 0)). rewrite map_map. rewrite (map_ext_in _ (fun c => c)) by (intros c Hc; now apply HR). rewrite map_id.
      assert (Hs := unique_sorted label). fold (components label) in Hs. clear - Hs. induction Hs as [|a l Hs IH Hf]; [constructor|]. constructor; [|exact IH]. intros Hin. rewrite Forall_forall in Hf. specialize (Hf a Hin). lia.
    + intros x y Hx Hy Hxy. apply Hinj; [exact Hx|exact Hy|]. apply Hl; [now apply Hlt|now apply Hlt|exact Hxy].
    + intros x Hx. assert (Hc : In (nth x label 0) (components label)) by (unfold components; apply unique_In, nth_In; now rewrite HL). exists (rep (nth x label 0)). split; [now apply in_map|].
      apply Hl; [exact Hx|now apply HR|]. symmetry. now apply HR.
  - intros ->. exists (nodes_of label (largest_comp label)). split; [reflexivity|]. split.
    + apply filter_sorted, seq_sorted.
    + destruct (C127_largest_partial keep_order (fun _ => LouvainProps.in_order) 1 1 n norm M t A label false [7] keep_ok in_order_ok HI E HLab ltac:(discriminate)) as (nodes & _ & B & EB & _ & R1 & R2 & _).
      destruct (largest_size n norm M t A label nodes B HI E HLab EB) as [-> _]. now split.
Qed.
Example C171_applies : exists A, load_autocov 5 3 pairs 1%num = Some A /\ labels_of 5 (value (a_PT A)) pair_labels /\ s_ncomp (saved_info OnlyLargest pair_labels) = Some 3 /\ s_largest (saved_info OnlyLargest pair_labels) = Some [0; 1].
Proof. destruct (load_spec 5 3 pairs 1%num pairs_ok) as (A & E & _). exists A. split; [exact E|]. split; [now apply (pair_labels_ok 3)|]. split; reflexivity. Qed.

Print Assumptions C169_runs.
Print Assumptions C169_one_run.
Print Assumptions C169_density.
Print Assumptions C170_largest_refuted.
Print Assumptions C170_static_partial.
Print Assumptions C171_labels_refuted.
Print Assumptions C171_none_saved.
Print Assumptions C171_components_partial.
