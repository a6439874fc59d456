(** Properties C151-C155: time scales and the steps of an analysis. *)
From Verif Require Import Base LouvainModel SparseModel EventsModel EventsSpec EventsProofs EventsProps LaplacianProofs TransModel TransSpec MatProofs
  TransProofs TransProps FlowModel FlowSpec FlowProofs FlowGridProofs FlowProps PipeModel PipeSpec PipeProofs.

(** * C151: the time scales read back are those that were given *)
Definition C151_statement : Prop := forall v kp, set_scale v = Some kp -> fst (read_scale kp) = scales_given v.
(** Refuted: of an iterator nothing is left. *)
Theorem C151_iterator_refuted : ~ C151_statement.
Proof. intros H. specialize (H (SIterator [Some 1%num; None]) _ eq_refl). discriminate H. Qed.
Theorem C151_iterator_lost : forall l kp, set_scale (SIterator l) = Some kp -> fst (read_scale kp) = [].
Proof. intros l kp H. apply checked_spec in H. now destruct H as [_ ->]. Qed.
Theorem C151_generator_rejected : forall l, set_scale (SGenerator l) = None.
Proof. reflexivity. Qed.
(** Proved: for None, numbers and containers, however often they are read; exactly positive numbers
    and None are accepted. *)
Theorem C151_scales_partial : forall v kp, one_shot v = false -> set_scale v = Some kp ->
  read_scale kp = (scales_given v, kp).
Proof.
  intros v kp Hv H. destruct v as [|x|l|l|l|]; try discriminate; cbn [set_scale] in H; apply checked_spec in H; destruct H as [_ ->]; reflexivity.
Qed.
Theorem C151_accepted_partial : forall v, one_shot v = false -> v <> SOther ->
  ((exists kp, set_scale v = Some kp) <-> Forall usable (scales_given v)).
Proof.
  intros v Hv Ho. split.
  - intros [kp H]. destruct v as [|x|l|l|l|]; try discriminate; cbn [set_scale] in H; apply checked_spec in H; exact (proj1 H).
  - intros H. destruct v as [|x|l|l|l|]; try discriminate; try contradiction; cbn [set_scale scales_given] in *.
    + now exists (Container [None]).
    + exists (Container [Some x]). now apply checked_spec.
    + exists (Container l). now apply checked_spec.
Qed.
(** the rates are the inverses, in the same order *)
Theorem C151_rates_partial : forall v kp i t, one_shot v = false -> set_scale v = Some kp -> nth_error (scales_given v) i = Some (Some t) ->
  exists y, nth_error (read_lamda kp) i = Some (Some y) /\ (y * t = 1)%num.
Proof.
  intros v kp i t Hv H Hi. pose proof (C151_scales_partial v kp Hv H) as HR. unfold read_lamda. rewrite HR. cbn [fst].
  exists (1 / t)%num. split; [rewrite nth_error_map, Hi; reflexivity|].
  assert (Hu : Forall usable (scales_given v)).
  { apply C151_accepted_partial; [exact Hv|destruct v; discriminate|now exists kp]. }
  rewrite Forall_forall in Hu. specialize (Hu _ (nth_error_In _ _ Hi)). cbn in Hu. field. intros E. rewrite E in Hu. revert Hu. apply Qcle_not_lt, Qcle_refl.
Qed.
(** [set_time_scale]: a value goes before the keyword arguments *)
Theorem C151_set_time_scale_partial : forall value grid kp, one_shot value = false -> set_time_scale value grid = Some kp ->
  read_scale kp = (match value, grid with SNone, Some g => map Some g | _, _ => scales_given value end, kp).
Proof.
  intros value grid kp Hv H. unfold set_time_scale in H.
  destruct value as [|x|l|l|l|]; try discriminate; try (now apply C151_scales_partial).
  destruct grid as [g|]; [exact (C151_scales_partial (SList (map Some g)) kp eq_refl H)|now apply C151_scales_partial].
Qed.
Example C151_applies : set_scale (SList [Some 1%num; None; Some (qn 3)]) = Some (Container [Some 1%num; None; Some (qn 3)]) /\
  set_time_scale SNone (Some [1%num; qn 10]) = Some (Container [Some 1%num; Some (qn 10)]) /\ set_scale (SList [Some 0%num]) = None /\
  set_scale (SIterator [Some 1%num]) = Some (Remaining []).
Proof. vm_compute. repeat split. Qed.

Lemma density_given p1 : density p1 = given_density p1.
Proof. now destruct p1. Qed.
(** * C152: an analysis clusters one integral for every time scale and direction *)
(** the Laplacians of a network, without a window, are those of all steps *)
Theorem C152_network_whole : forall fuel reset srcs tgts starts ends N g, make_net fuel reset false srcs tgts starts ends = Some N ->
  rows N <> [] -> ids_ok N = true -> no_self_contact (rows N) -> is_time_grid (rows N) g ->
  exists Ls, whole_time (times (rows N)) (compute_laplacians N g) Ls.
Proof.
  intros fuel reset srcs tgts starts ends N g HN Hne Hids Hself HG.
  assert (HO : own_index (rows N)). { unfold make_net in HN. destruct (build_table reset srcs tgts starts ends) as [t|] eqn:EB; [|discriminate]. injection HN as <-. now destruct (build_table_perm _ _ _ _ _ _ EB) as (_ & _ & _ & HO & _). }
  destruct (laplacians_gen N g None None (fun _ _ => True) (fun _ _ => True)) as (ka & kb & Ls & E & _ & _ & Sa & Sb & _); auto.
  exists Ls. unfold whole_time. cbn in Sa, Sb. subst ka. rewrite E. f_equal. f_equal. f_equal. lia.
Qed.
Definition C152_statement : Prop := forall n ts lapf E P Ls k q l dir, laplacians_ok n ts lapf -> StronglySorted Qclt ts -> expm_ok n E ->
  whole_time ts lapf Ls -> 2 <= length ts -> no_scale_keywords k -> fits n (k_p1 q) = true -> distribution_ok n (given_density (k_p1 q)) -> k_grid q = None ->
  Forall usable l ->
  exists s1 s2 s3 out, step_laplacians lapf (new_analysis l dir) = (s1, true) /\
    step_inter n ts lapf E P false k s1 = (s2, true) /\ step_flow n ts q s2 = (s3, true) /\ step_louvain s3 = Some out.
(** With None among the scales the integrals are never made: the matrices are stored under the rate
    that was chosen and looked up under None. *)
Theorem C152_none_raises : forall n ts q s l, s_scales s = Container l -> In None l -> snd (step_flow n ts q s) = false.
Proof.
  intros n ts q s l Hs Hl. unfold step_flow. rewrite Hs. cbn [read_scale].
  destruct (flow_loop n ts q l (with_scales s (Container l))) as [s' [|]] eqn:E; [|reflexivity].
  destruct (flow_loop_success n ts q l _ s' E) as (_ & _ & _ & H). destruct (H None Hl) as (y & _ & _ & Hy & _). discriminate Hy.
Qed.
Lemma whole39 : exists Ls, whole_time (times (rows net39)) lap39 Ls.
Proof. destruct C39_applies as (H1 & H2 & H3 & H4 & H5 & _). exact (C152_network_whole 0 true [0; 1] [1; 2] [qn 0; qn 1] [qn 1; qn 3] net39 _ H1 H2 H3 H4 H5). Qed.
Lemma plain_keywords fixt sp t_s : no_scale_keywords (mkIk None None fixt sp t_s).
Proof. split; [reflexivity|now left]. Qed.
(** Refuted: the default time scale. *)
Theorem C152_default_refuted : ~ C152_statement.
Proof.
  intros H. destruct whole39 as [Ls HW].
  destruct (H 3 (times (rows net39)) lap39 Estep (fun A => A) Ls (mkIk None None false false 1%num) (mkFk None None) [None] 0%Z
    (proj1 lap39_ok) (proj2 lap39_ok) (Estep_ok 3) HW ltac:(vm_compute; lia) (plain_keywords _ _ _) eq_refl ltac:(cbn; lia) eq_refl ltac:(repeat constructor))
    as (s1 & s2 & s3 & out & E1 & E2 & E3 & _).
  assert (HS : s_scales s2 = Container [None]).
  { unfold step_laplacians, compute_lap in E1. unfold whole_time in HW. rewrite HW in E1. injection E1 as <-.
    unfold step_inter in E2. cbn [k_time_scale k_lamda] in E2. unfold inter_scales in E2.
    cbn [with_net s_scales new_analysis read_scale inter_loop k_time_scale] in E2.
    match type of E2 with match ?o with Some _ => _ | None => _ end = _ => destruct o as [st|]; [|discriminate E2] end.
    injection E2 as <-. reflexivity. }
  pose proof (C152_none_raises 3 (times (rows net39)) (mkFk None None) s2 [None] HS (or_introl eq_refl)) as HN. rewrite E3 in HN. discriminate HN.
Qed.
(** Proved for numbers: all steps succeed; for every scale and direction the average covariance of walkers
    with that mean waiting time is clustered, and nothing else. *)
Theorem C152_analysis_partial : forall n ts lapf E P Ls k q l dir, laplacians_ok n ts lapf -> StronglySorted Qclt ts -> expm_ok n E ->
  whole_time ts lapf Ls -> 2 <= length ts -> no_scale_keywords k -> fits n (k_p1 q) = true -> distribution_ok n (given_density (k_p1 q)) -> k_grid q = None ->
  Forall usable l -> ~ In None l ->
  exists s1 s2 s3 A, step_laplacians lapf (new_analysis l dir) = (s1, true) /\
    step_inter n ts lapf E P false k s1 = (s2, true) /\ step_flow n ts q s2 = (s3, true) /\
    step_louvain s3 = Some (one_each dir l A) /\
    forall t rev, In (Some t) l -> wanted dir rev = true -> exists M, walk_matrices n ts E (k_fix k) Ls t M /\
      eqm n (A (Some t) rev) (flow_average n None (Some M) (given_density (k_p1 q)) (Some ts) rev (length ts - 1)).
Proof. intros n ts lapf E P Ls k q l dir HL HS HE HW Hts. rewrite <- density_given. now apply analysis_average. Qed.
(** Whatever the grid: of the integrals of a flow the first is clustered. *)
Theorem C152_first_partial : forall s out x rev A, step_louvain s = Some out -> In (x, rev, A) out ->
  wanted (s_dir s) rev = true /\ exists F r, aget scale_eqb (if rev then s_bwd s else s_fwd s) x = Some F /\ f_I F = A :: r.
Proof.
  intros s out x rev A. unfold step_louvain. generalize (fst (read_scale (s_scales s))). intros l. revert out.
  assert (HF : forall d y B, first_integral d y = Some B -> exists F r, aget scale_eqb d y = Some F /\ f_I F = B :: r).
  { intros d y B. unfold first_integral. destruct (aget scale_eqb d y) as [F|]; [|discriminate]. destruct (f_I F) as [|C r] eqn:E; [discriminate|]. intros [= <-]. now exists F, r. }
  induction l as [|y l IH]; intros out H Hin; cbn [clustered] in H; [injection H as <-; destruct Hin|].
  unfold wanted. destruct (s_dir s <=? 0)%Z eqn:Db, (0 <=? s_dir s)%Z eqn:Df;
    repeat match type of H with context[match first_integral ?d y with _ => _ end] => let E := fresh "E" in destruct (first_integral d y) eqn:E; [apply HF in E|discriminate H] end;
    (destruct (clustered s l) as [o|]; [|discriminate H]); injection H as <-; cbn [app] in Hin; unfold wanted in IH; rewrite ?Db, ?Df in IH;
    repeat (destruct Hin as [Hin|Hin]; [injection Hin as <- <- <-; split; [reflexivity|assumption]|]); now apply (IH o).
Qed.
Example C152_applies : exists Ls, whole_time (times (rows net39)) lap39 Ls /\ laplacians_ok 3 (times (rows net39)) lap39 /\ 2 <= length (times (rows net39)) /\
  expm_ok 3 Estep /\ no_scale_keywords (mkIk None (Some None) false true 1%num) /\ fits 3 (Some [qf 1 2; qf 1 4; qf 1 4]) = true /\
  distribution_ok 3 (given_density (Some [qf 1 2; qf 1 4; qf 1 4])) /\
  one_each 0 [Some 1%num; Some (qn 5)] (fun _ _ => ident) = [(Some 1%num, true, ident); (Some 1%num, false, ident); (Some (qn 5), true, ident); (Some (qn 5), false, ident)].
Proof.
  destruct whole39 as [Ls HW]. exists Ls. split; [exact HW|]. split; [apply lap39_ok|]. split; [vm_compute; lia|]. split; [apply Estep_ok|].
  split; [split; [reflexivity|now right]|]. split; [reflexivity|]. split; [|reflexivity].
  split; [|vm_compute; now apply Qc_is_canon]. intros i Hi. do 3 (destruct i as [|i]; [vm_compute; discriminate|]). lia.
Qed.

Example C152_first_applies : let s := fst (step_flow 3 (times (rows net39)) (mkFk None (Some [qn 0; qn 1; qn 3]))
    (fst (step_inter 3 (times (rows net39)) lap39 Estep (fun A => A) false (mkIk None None false false 1%num) (fst (step_laplacians lap39 (new_analysis [Some 1%num] 1)))))) in
  match step_louvain s, s_fwd s with Some [(_, rev, _)], [(_, F)] => rev = false /\ length (f_I F) = 2 | _, _ => False end.
Proof. vm_compute. split; reflexivity. Qed.

(** * C153: keyword arguments of compute_inter_transition_matrices *)
Definition C153_statement : Prop := forall n ts lapf E P Ls k v l dir, laplacians_ok n ts lapf -> StronglySorted Qclt ts -> expm_ok n E ->
  whole_time ts lapf Ls -> 2 <= length ts -> (exists kp, set_scale v = Some kp) -> Forall usable l ->
  (k_time_scale k = Some v \/ (k_time_scale k = None /\ exists x, k_lamda k = Some (Some x) /\ (0 < x)%num)) ->
  exists s1 s2, step_laplacians lapf (new_analysis l dir) = (s1, true) /\ step_inter n ts lapf E P false k s1 = (s2, true).
(** [time_scale]: an exception is raised whenever there is anything to compute *)
Theorem C153_time_scale_raises : forall n ts lapf E P linear k v kp s, k_time_scale k = Some v -> v <> SNone -> set_scale v = Some kp ->
  fst (read_scale kp) <> [] -> snd (step_inter n ts lapf E P linear k s) = false.
Proof.
  intros n ts lapf E P linear k v kp s Hk Hv Hset Hne. unfold step_inter. rewrite Hk.
  assert (G : snd (inter_scales n ts lapf E P linear k (with_scales s kp)) = false).
  { unfold inter_scales. cbn [s_scales with_scales]. destruct (read_scale kp) as [[|x r] kp']; [now destruct Hne|]. cbn [inter_loop]. now rewrite Hk. }
  destruct v; try contradiction; rewrite Hset; exact G.
Qed.
(** [time_scale=None] raises as well *)
Theorem C153_none_raises : forall n ts lapf E P linear k s, k_time_scale k = Some SNone -> fst (read_scale (s_scales s)) <> [] ->
  snd (step_inter n ts lapf E P linear k s) = false.
Proof.
  intros n ts lapf E P linear k s Hk Hne. unfold step_inter. rewrite Hk. unfold inter_scales.
  destruct (read_scale (s_scales s)) as [[|x r] kp']; [now destruct Hne|]. cbn [inter_loop]. now rewrite Hk.
Qed.
(** a time scale that is refused raises too, and nothing has changed *)
Theorem C153_invalid_raises : forall n ts lapf E P linear k v s, k_time_scale k = Some v -> set_scale v = None ->
  step_inter n ts lapf E P linear k s = (s, false).
Proof. intros n ts lapf E P linear k v s Hk Hset. unfold step_inter. rewrite Hk. destruct v; try rewrite Hset; try reflexivity. discriminate Hset. Qed.
(** [lamda]: always an exception *)
Theorem C153_lamda_raises : forall n ts lapf E P linear k x s, k_time_scale k = None -> k_lamda k = Some (Some x) ->
  step_inter n ts lapf E P linear k s = (s, false).
Proof. intros n ts lapf E P linear k x s Hk Hx. unfold step_inter. now rewrite Hk, Hx. Qed.
Theorem C153_keywords_refuted : ~ C153_statement.
Proof.
  intros H. destruct whole39 as [Ls HW].
  destruct (H 3 (times (rows net39)) lap39 Estep (fun A => A) Ls (mkIk (Some (SNumber 1%num)) None false false 1%num) (SNumber 1%num) [Some (qn 2)] 0%Z
    (proj1 lap39_ok) (proj2 lap39_ok) (Estep_ok 3) HW ltac:(vm_compute; lia) (ex_intro _ _ eq_refl) ltac:(repeat constructor) (or_introl eq_refl)) as (s1 & s2 & _ & E2).
  pose proof (C153_time_scale_raises 3 (times (rows net39)) lap39 Estep (fun A => A) false (mkIk (Some (SNumber 1%num)) None false false 1%num)
    (SNumber 1%num) (Container [Some 1%num]) s1 eq_refl ltac:(discriminate) eq_refl ltac:(discriminate)) as HR.
  rewrite E2 in HR. discriminate HR.
Qed.
(** Proved: [lamda=None] is the same as not giving it, and the scales that are set are used (C152). *)
Theorem C153_lamda_none_partial : forall n ts lapf E P linear ts' fixt sp t_s s,
  step_inter n ts lapf E P linear (mkIk ts' (Some None) fixt sp t_s) s = step_inter n ts lapf E P linear (mkIk ts' None fixt sp t_s) s.
Proof.
  intros. unfold step_inter. cbn [k_time_scale k_lamda].
  assert (G : forall l s0, inter_loop n ts lapf E P linear (mkIk ts' (Some None) fixt sp t_s) l s0 = inter_loop n ts lapf E P linear (mkIk ts' None fixt sp t_s) l s0).
  { induction l as [|x l IH]; intros s0; [reflexivity|]. cbn [inter_loop k_time_scale]. destruct ts'; [reflexivity|]. unfold to_compute. cbn [k_ts k_fix k_sparse].
    destruct (if linear then _ else _) as [st|]; [apply IH|reflexivity]. }
  assert (G' : forall s0, inter_scales n ts lapf E P linear (mkIk ts' (Some None) fixt sp t_s) s0 = inter_scales n ts lapf E P linear (mkIk ts' None fixt sp t_s) s0).
  { intros s0. unfold inter_scales. destruct (read_scale (s_scales s0)). apply G. }
  destruct ts' as [v|]; [|apply G']. destruct v; try apply G'; destruct (set_scale _); reflexivity || apply G'.
Qed.

(** * C154: an analysis with linear_approx *)
Definition C154_statement : Prop := forall n ts lapf E P k q l dir s1 s2, fits n (k_p1 q) = true -> no_scale_keywords k ->
  Forall usable l -> ~ In None l -> step_laplacians lapf (new_analysis l dir) = (s1, true) -> step_inter n ts lapf E P true k s1 = (s2, true) ->
  exists s3, step_flow n ts q s2 = (s3, true).
Lemma lin_inter_keeps ts lapf P x a b t_s f sp st st' : compute_lin_inter ts lapf P x a b t_s f sp st = Some st' -> t_inter st' = t_inter st.
Proof.
  unfold compute_lin_inter. intros H.
  destruct (match t_stat st with Some _ => Some st | None => compute_stat lapf P a b st end) as [st1|] eqn:E1; [|discriminate].
  assert (H1 : t_inter st1 = t_inter st).
  { destruct (t_stat st); [now injection E1 as <-|]. unfold compute_stat, ensure_lap, compute_lap in E1. destruct (t_lap st) as [[[? ?] ?]|] eqn:EL.
    - rewrite EL in E1. now injection E1 as <-.
    - destruct (lapf a b) as [[[? ?] ?]|]; [|discriminate]. cbn in E1. now injection E1 as <-. }
  rewrite <- H1. destruct (the_lamda ts x) as [y|]; [|discriminate].
  destruct (aget pair_eqb (t_inter_lin st1) (y, t_s)) as [v|]; [now injection H as <-|].
  destruct (t_lap st1) as [lap|]; [|discriminate]. destruct (t_stat st1) as [Pis|]; [|discriminate].
  match type of H with match ?o with _ => _ end = _ => destruct o as [[|A l]|]; [| |discriminate] end.
  - destruct sp; [discriminate|]. now injection H as <-.
  - now injection H as <-.
Qed.
Lemma lin_loop_keeps n ts lapf E P k l : forall s s', inter_loop n ts lapf E P true k l s = (s', true) -> t_inter (s_net s') = t_inter (s_net s) /\ s_scales s' = s_scales s.
Proof.
  induction l as [|x l IH]; cbn [inter_loop]; intros s s' H; [now injection H as <-|].
  destruct (k_time_scale k); [discriminate|]. unfold to_compute in H.
  destruct (compute_lin_inter ts lapf P (rate x) None None (k_ts k) (k_fix k) (k_sparse k) (s_net s)) as [st|] eqn:EC; [|discriminate].
  apply IH in H. cbn [s_net with_net s_scales] in H. apply lin_inter_keeps in EC. destruct H as [H1 H2]. split; congruence.
Qed.
(** A new analysis with linear_approx stops at set_flow_clustering, which reads the other matrices. *)
Theorem C154_linear_raises : forall n ts lapf E P k q l dir s1 s2, no_scale_keywords k -> l <> [] ->
  step_laplacians lapf (new_analysis l dir) = (s1, true) -> step_inter n ts lapf E P true k s1 = (s2, true) ->
  snd (step_flow n ts q s2) = false.
Proof.
  intros n ts lapf E P k q l dir s1 s2 [Hk Hk2] Hl E1 E2.
  assert (HL : inter_scales n ts lapf E P true k s1 = (s2, true)).
  { unfold step_inter in E2. rewrite Hk in E2. destruct Hk2 as [Hk2|Hk2]; rewrite Hk2 in E2; exact E2. }
  unfold step_laplacians in E1. destruct (compute_lap lapf None None (s_net (new_analysis l dir))) as [st|] eqn:EC; [|discriminate].
  injection E1 as <-. unfold inter_scales in HL. cbn [with_net s_scales new_analysis read_scale] in HL. apply lin_loop_keeps in HL. destruct HL as [HI HS].
  cbn in HI, HS. unfold compute_lap in EC. destruct (lapf None None); [|discriminate]. injection EC as <-. cbn in HI.
  destruct l as [|x l]; [contradiction|]. unfold step_flow. rewrite HS. cbn [read_scale flow_loop]. unfold flow_scale, inter_of. cbn [with_scales s_net].
  rewrite HI. destruct (rate x); reflexivity.
Qed.
Example C154_witness : exists s1 s2, step_laplacians lap39 (new_analysis [Some 1%num] 0) = (s1, true) /\
  step_inter 3 (times (rows net39)) lap39 Estep (fun A => A) true (mkIk None None false false (qn 10)) s1 = (s2, true).
Proof.
  set (s1 := fst (step_laplacians lap39 (new_analysis [Some 1%num] 0))).
  set (s2 := fst (step_inter 3 (times (rows net39)) lap39 Estep (fun A => A) true (mkIk None None false false (qn 10)) s1)).
  exists s1, s2. split.
  - assert (H : snd (step_laplacians lap39 (new_analysis [Some 1%num] 0)) = true) by (vm_compute; reflexivity).
    unfold s1. rewrite <- H. apply surjective_pairing.
  - assert (H : snd (step_inter 3 (times (rows net39)) lap39 Estep (fun A => A) true (mkIk None None false false (qn 10)) s1) = true) by (vm_compute; reflexivity).
    unfold s2. rewrite <- H. apply surjective_pairing.
Qed.
Theorem C154_linear_refuted : ~ C154_statement.
Proof.
  intros H. destruct C154_witness as (s1 & s2 & E1 & E2).
  destruct (H 3 (times (rows net39)) lap39 Estep (fun A => A) (mkIk None None false false (qn 10)) (mkFk None None) [Some 1%num] 0%Z s1 s2
    eq_refl (plain_keywords _ _ _) ltac:(repeat constructor) ltac:(intros [?|[]]; discriminate) E1 E2) as [s3 E3].
  pose proof (C154_linear_raises 3 (times (rows net39)) lap39 Estep (fun A => A) (mkIk None None false false (qn 10)) (mkFk None None) [Some 1%num] 0%Z s1 s2
    (plain_keywords _ _ _) ltac:(discriminate) E1 E2) as HR.
  rewrite E3 in HR. discriminate HR.
Qed.
(** Proved: what set_flow_clustering makes does not depend on the linear approximations, so those of
    a network that has both kinds of matrices are ignored. *)
Definition replace_lin (x : list ((num * num) * list mat)) (s : fstab) : fstab := with_net s (set_inter_lin (s_net s) x).
Theorem C154_ignored_partial : forall n ts q x s,
  step_flow n ts q (replace_lin x s) = (replace_lin x (fst (step_flow n ts q s)), snd (step_flow n ts q s)).
Proof.
  intros n ts q x s. unfold step_flow. cbn [s_scales replace_lin with_net]. destruct (read_scale (s_scales s)) as [l kp].
  change (with_scales (replace_lin x s) kp) with (replace_lin x (with_scales s kp)). generalize (with_scales s kp). clear s.
  assert (HSt : forall rev z m s, store rev z m (replace_lin x s) = (replace_lin x (fst (store rev z m s)), snd (store rev z m s))).
  { intros rev z m s. destruct m as [F| |]; [destruct rev| |]; reflexivity. }
  induction l as [|z l IH]; intros s; [reflexivity|]. cbn [flow_loop].
  assert (H : flow_scale n ts q z (replace_lin x s) = (replace_lin x (fst (flow_scale n ts q z s)), snd (flow_scale n ts q z s))).
  { unfold flow_scale. change (inter_of (replace_lin x s) z) with (inter_of s z). destruct (inter_of s z) as [M|]; [|reflexivity].
    change (s_dir (replace_lin x s)) with (s_dir s). destruct (s_dir s <=? 0)%Z.
    - rewrite HSt. destruct (store true z (make_flow n ts M q true) s) as [s1 [|]]; [|reflexivity]. cbn [fst snd].
      destruct (0 <=? s_dir s)%Z; [apply HSt|reflexivity].
    - destruct (0 <=? s_dir s)%Z; [apply HSt|reflexivity]. }
  rewrite H. destruct (flow_scale n ts q z s) as [s1 [|]]; cbn [fst snd]; [apply IH|reflexivity].
Qed.

(** * C155: after set_flow_clustering the integrals are those of its arguments *)
Definition C155_statement : Prop := forall n ts q s s' l x rev, step_flow n ts q s = (s', true) -> s_scales s = Container l ->
  In x l -> wanted (s_dir s) rev = true ->
  exists y sp M F, rate x = Some y /\ aget qeqb (t_inter (s_net s)) y = Some (sp, M) /\
    set_flow n ts M (given_density (k_p1 q)) (k_grid q) rev None = Some F /\ aget scale_eqb (if rev then s_bwd s' else s_fwd s') x = Some F.
(** A density of the wrong length: the step returns and leaves everything as it was. *)
Theorem C155_unchanged : forall n ts q s s', fits n (k_p1 q) = false -> step_flow n ts q s = (s', true) ->
  s_fwd s' = s_fwd s /\ s_bwd s' = s_bwd s.
Proof.
  intros n ts q s s' Hfit H. unfold step_flow in H. destruct (read_scale (s_scales s)) as [l kp].
  apply flow_loop_unfit in H; [|exact Hfit]. subst s'. split; reflexivity.
Qed.
(** an analysis, then set_flow_clustering with the density of another network: the old integrals are
    clustered *)
Definition fs39 : fstab := fst (step_inter 3 (times (rows net39)) lap39 Estep (fun A => A) false (mkIk None None false false 1%num)
  (fst (step_laplacians lap39 (new_analysis [Some 1%num] 0)))).
Definition done39 : fstab := fst (step_flow 3 (times (rows net39)) (mkFk None None) fs39).
Definition wrong39 : flow_kwargs := mkFk (Some [qf 1 2; qf 1 2]) None.
Theorem C155_stale : fits 3 (k_p1 wrong39) = false /\ snd (step_flow 3 (times (rows net39)) wrong39 done39) = true /\
  match step_louvain done39, step_louvain (fst (step_flow 3 (times (rows net39)) wrong39 done39)) with
  | Some ((_ :: _) as out), Some out' => out' = out
  | _, _ => False
  end.
Proof.
  split; [reflexivity|].
  assert (H : snd (step_flow 3 (times (rows net39)) wrong39 done39) = true) by (vm_compute; reflexivity). split; [exact H|].
  destruct (step_flow 3 (times (rows net39)) wrong39 done39) as [s' b] eqn:E. cbn in H. subst b. cbn [fst].
  assert (Hs : s' = with_scales done39 (snd (read_scale (s_scales done39)))).
  { unfold step_flow in E. destruct (read_scale (s_scales done39)) as [l kp]. now apply flow_loop_unfit in E. }
  assert (Hk : snd (read_scale (s_scales done39)) = s_scales done39) by (vm_compute; reflexivity). rewrite Hk in Hs.
  assert (Hd : s' = done39) by (rewrite Hs; destruct done39; reflexivity). rewrite Hd.
  assert (Hlen : match step_louvain done39 with Some l => length l | None => 0 end = 2) by (vm_compute; reflexivity).
  destruct (step_louvain done39) as [[|c out]|]; [discriminate Hlen|reflexivity|discriminate Hlen].
Qed.
Theorem C155_stale_refuted : ~ C155_statement.
Proof.
  intros H.
  assert (E1 : snd (step_flow 3 (times (rows net39)) wrong39 fs39) = true) by (vm_compute; reflexivity).
  destruct (step_flow 3 (times (rows net39)) wrong39 fs39) as [s' b] eqn:E. cbn in E1. subst b.
  assert (HS : s_scales fs39 = Container [Some 1%num]) by (vm_compute; reflexivity).
  assert (HD : s_dir fs39 = 0%Z) by (vm_compute; reflexivity).
  assert (HF : s_fwd fs39 = []) by (vm_compute; reflexivity).
  destruct (H 3 (times (rows net39)) wrong39 fs39 s' [Some 1%num] (Some 1%num) false E HS (or_introl eq_refl) ltac:(now rewrite HD))
    as (y & sp & M & F & _ & _ & _ & HG).
  destruct (C155_unchanged 3 (times (rows net39)) wrong39 fs39 s' eq_refl E) as [HU _]. rewrite HU, HF in HG. discriminate HG.
Qed.
(** Proved when the density has one entry per node, whatever was stored before. *)
Theorem C155_fresh_partial : forall n ts q s s' l x rev, fits n (k_p1 q) = true -> step_flow n ts q s = (s', true) -> s_scales s = Container l ->
  In x l -> wanted (s_dir s) rev = true ->
  exists y sp M F, rate x = Some y /\ aget qeqb (t_inter (s_net s)) y = Some (sp, M) /\
    set_flow n ts M (given_density (k_p1 q)) (k_grid q) rev None = Some F /\ aget scale_eqb (if rev then s_bwd s' else s_fwd s') x = Some F.
Proof.
  intros n ts q s s' l x rev Hfit H Hs Hx Hw. rewrite <- density_given. unfold step_flow in H. rewrite Hs in H. cbn [read_scale] in H.
  destruct (flow_loop_fresh n ts q l (with_scales s (Container l)) s' Hfit H) as [HB HF]. destruct rev; [apply (HB Hw x Hx)|apply (HF Hw x Hx)].
Qed.

Print Assumptions C151_iterator_refuted.
Print Assumptions C151_iterator_lost.
Print Assumptions C151_generator_rejected.
Print Assumptions C151_scales_partial.
Print Assumptions C151_accepted_partial.
Print Assumptions C151_rates_partial.
Print Assumptions C151_set_time_scale_partial.
Print Assumptions C152_network_whole.
Print Assumptions C152_none_raises.
Print Assumptions C152_default_refuted.
Print Assumptions C152_analysis_partial.
Print Assumptions C152_first_partial.
Print Assumptions C153_time_scale_raises.
Print Assumptions C153_none_raises.
Print Assumptions C153_invalid_raises.
Print Assumptions C153_lamda_raises.
Print Assumptions C153_keywords_refuted.
Print Assumptions C153_lamda_none_partial.
Print Assumptions C154_linear_raises.
Print Assumptions C154_linear_refuted.
Print Assumptions C154_ignored_partial.
Print Assumptions C155_unchanged.
Print Assumptions C155_stale.
Print Assumptions C155_stale_refuted.
Print Assumptions C155_fresh_partial.
