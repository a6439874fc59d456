(** Properties C50-C54 and C57: the tracking of the steps of an analysis. *)
From Verif Require Import Base StateModel StateSpec StateProofs.

(** ** C50, for every state-tracked class *)
Theorem C50_refused_unchanged :
  forall c data assignv callv setter is_none mbody (o : obj data) m a,
    m < length (c_meths c) -> ~ ready c (tr o) m ->
    call c data assignv callv setter is_none mbody o m a = (o, [ERefused m]).
Proof. exact call_refused. Qed.
Print Assumptions C50_refused_unchanged.
(** a call that is not refused had its prerequisites; it ends by completing the step or by
    raising, and then the state is not advanced *)
Theorem C50_body_runs_only_when_ready :
  forall c data assignv callv setter is_none mbody (o : obj data) m a o' es,
    m < length (c_meths c) ->
    call c data assignv callv setter is_none mbody o m a = (o', es) -> es <> [ERefused m] ->
    ready c (tr o) m /\ exists nested, (forall e, In e nested -> exists p, e = EAssigned p) /\
      ((es = nested ++ [ECompleted m] /\ cur (tr o') = m_next (nth_meth c m)) \/
       (es = nested ++ [ERaised m] /\ cur (tr o') <= cur (tr o))).
Proof. exact call_ran. Qed.
Print Assumptions C50_body_runs_only_when_ready.

(** ** C51, for every state-tracked class *)
Theorem C51_assignment_goes_back :
  forall c data assignv setter is_none (o : obj data) i v o' ok,
    assign c data assignv setter is_none o i v = (o', ok) ->
    cur (tr o') <= cur (tr o) /\ (ok = true -> cur (tr o') <= p_next (nth_prop c i)) /\
    (ok = false -> tr o' = tr o).
Proof. exact assign_back. Qed.
Print Assumptions C51_assignment_goes_back.
Theorem C51_forward_by_completion :
  forall c data assignv callv setter is_none mbody (o : obj data) x o' es,
    step c data assignv callv setter is_none mbody o x = (o', es) -> cur (tr o) < cur (tr o') ->
    exists m a, x = OCall m a /\ In (ECompleted m) es /\ cur (tr o') = m_next (nth_meth c m).
Proof. exact step_forward. Qed.
Print Assumptions C51_forward_by_completion.
Theorem C51_steps_use_fresh_inputs :
  forall c data assignv callv setter is_none mbody (d : data) xs o es m a o' es',
    history c data assignv callv setter is_none mbody (mkO (fresh c) d) xs = (o, es) ->
    m < length (c_meths c) -> c_first c < m_min (nth_meth c m) ->
    call c data assignv callv setter is_none mbody o m a = (o', es') -> es' <> [ERefused m] ->
    up_to_date c (m_min (nth_meth c m)) es.
Proof. exact accepted_up_to_date. Qed.
Print Assumptions C51_steps_use_fresh_inputs.

(** ** C52, for every state-tracked class *)
Theorem C52_advertised_step_accepted :
  forall c data assignv callv setter is_none mbody (o : obj data) m a o' es,
    state_next c (tr o) = ([], Some m) ->
    call c data assignv callv setter is_none mbody o m a = (o', es) -> ~ In (ERefused m) es.
Proof. exact advertised_runs. Qed.
Print Assumptions C52_advertised_step_accepted.
Theorem C52_advertised_step_is_furthest :
  forall c s m m', next_method c s = Some m -> m' < length (c_meths c) ->
    m_min (nth_meth c m') <= s -> m' <= m.
Proof. exact next_method_last. Qed.
Print Assumptions C52_advertised_step_is_furthest.

(** The missing parameters it lists are the properties that are registered up to the current state
    and have not been set, in any state that a property or a method of the class names. *)
Definition names_state (c : cls) (s : nat) : Prop :=
  (exists p, In p (c_props c) /\ p_next p = s) \/ (exists m, In m (c_meths c) /\ (m_min m = s \/ m_next m = s)).
Theorem C52_missing_listed :
  forall c t, names_state c (cur t) ->
    (forall i, In i (fst (state_next c t)) <-> i < length (c_props c) /\ p_next (nth_prop c i) <= cur t /\ pset t i = false) /\
    NoDup (fst (state_next c t)).
Proof.
  intros c t Hs. assert (Hk : known_state c (cur t) = true).
  { unfold known_state. apply orb_true_iff. destruct Hs as [(p & Hp & E)|(m & Hm & E)]; [left|right]; apply existsb_exists; eexists; (split; [eassumption|]); cbv beta.
    - now apply Nat.eqb_eq.
    - apply orb_true_iff. rewrite !Nat.eqb_eq. exact E. }
  cbn [state_next fst]. unfold missing, props_required. rewrite Hk. split.
  - intros i. rewrite filter_In, (positions_In _ (mkP 0 true)), negb_true_iff. split.
    + intros [(k & -> & Hk' & Hf) Hp]. apply Nat.leb_le in Hf. auto.
    + intros (Hi & Hl & Hp). split; [|exact Hp]. exists i. apply Nat.leb_le in Hl. auto.
  - apply NoDup_filter. generalize 0. generalize (c_props c). clear. intros l. induction l as [|a l IH]; intros k; cbn [positions]; [constructor|].
    destruct (p_next a <=? cur t); [|apply IH]. constructor; [|apply IH]. rewrite (positions_In _ (mkP 0 true)). intros (j & E & _). lia.
Qed.
Print Assumptions C52_missing_listed.
(** a class whose state 1 is named by a property only *)
Example C52_missing_applies : let c := mkC 0 [mkP 1 false; mkP 2 false; mkP 0 false] [mkM 2 3] in
  names_state c 1 /\ fst (state_next c (mkT 1 (fun _ => false))) = [0; 2].
Proof. cbv zeta. split; [left; exists (mkP 1 false); cbn; auto|reflexivity]. Qed.

(** FlowStability after three steps; one call refused, one accepted *)
Definition fs0 : fs_obj :=
  match fs_new VNone (VScales [None]) VNone VNone (VDir 1) with Some o => o | None => fs_empty end.
Definition fs3 : fs_obj := fst (fs_history fs0 [OCall M_net plain; OCall M_lap plain; OCall M_inter plain]).
Example C50_nonvacuous :
  ~ ready fs_class (tr fs3) M_louvain /\ ready fs_class (tr fs3) M_flow /\
  snd (fs_step fs3 (OCall M_louvain plain)) = [ERefused M_louvain] /\
  snd (fs_step fs3 (OCall M_flow plain)) = [EAssigned P_fwd; ECompleted M_flow] /\
  snd (fs_step fs3 (OCall M_flow (mkFC true None false [WOther]))) = [ERaised M_flow].
Proof.
  split; [intros [H _]; vm_compute in H; lia|].
  split; [apply ready_iff; [vm_compute; lia|split; reflexivity]|].
  repeat split; reflexivity.
Qed.
Example C51_nonvacuous :
  (* changing the network sends the analysis back before the Laplacians *)
  cur (tr fs3) = INTER_T /\ cur (tr (fst (fs_step fs3 (OAssign P_net VNet)))) = TEMP_NW /\
  snd (fs_history fs3 [OAssign P_net VNet; OCall M_flow plain]) = [EAssigned P_net; ERefused M_flow] /\
  c_first fs_class < m_min (nth_meth fs_class M_flow).
Proof. repeat split; vm_compute; try reflexivity; lia. Qed.
Example C52_nonvacuous : state_next fs_class (tr fs3) = ([], Some M_flow).
Proof. reflexivity. Qed.

(** ** C53 *)
Definition C53_statement : Prop :=
  forall z q, one_way z q ->
    exists net ts start stop o xs o' es,
      fs_new net ts start stop (VDir z) = Some o /\
      Forall (fun x => fs_op_ok x /\ only_direction z q x) xs /\
      fs_history o xs = (o', es) /\ cur (tr o') = FINAL.
(** no history whatsoever with a single direction gets to the end *)
Theorem C53_single_direction_never_final :
  forall z q net ts start stop dir o xs o' es,
    one_way z q -> dir = VNone \/ dir = VDir z ->
    fs_new net ts start stop dir = Some o ->
    Forall (fun x => fs_op_ok x /\ only_direction z q x) xs -> fs_history o xs = (o', es) ->
    cur (tr o') < FINAL /\ ~ In (ECompleted M_louvain) es.
Proof. exact single_direction_stuck. Qed.
Print Assumptions C53_single_direction_never_final.
Theorem C53_single_direction_refuted : ~ C53_statement.
Proof.
  intros H. destruct (H 1%Z P_bwd (or_introl (conj eq_refl eq_refl)))
    as (net & ts & start & stop & o & xs & o' & es & Hn & Hall & Hh & Hc).
  destruct (single_direction_stuck 1%Z P_bwd net ts start stop (VDir 1) o xs o' es
              (or_introl (conj eq_refl eq_refl)) (or_intror eq_refl) Hn Hall Hh) as [Hlt _]. lia.
Qed.
Print Assumptions C53_single_direction_refuted.
(** The documented sequence completes for both directions; for a single direction it does
    after assigning a placeholder to the clustering of the other direction ([dummy]). *)
Theorem C53_sequence_completes_partial :
  forall z l, (z = -1 \/ z = 0 \/ z = 1)%Z -> l <> [] ->
    Forall (fun x => match x with None => True | Some t => (0 < t)%num end) l ->
    exists o o' es, fs_new VNone (VScales l) VNone VNone (VDir z) = Some o /\
      fs_history o ([OCall M_net plain; OCall M_lap plain; OCall M_inter plain; OCall M_flow plain]
                      ++ dummy z ++ [OCall M_louvain plain]) = (o', es) /\
      cur (tr o') = FINAL.
Proof. exact sequence_completes. Qed.
Print Assumptions C53_sequence_completes_partial.
Example C53_nonvacuous :
  only_direction 1 P_bwd (OAssign P_dir (VDir 1)) /\ one_way 1 P_bwd /\
  (exists o, fs_new VNet (VScales [Some 1%num]) VTime VTime (VDir 1) = Some o) /\
  snd (fs_history fs3 [OCall M_flow plain; OCall M_louvain plain])
    = [EAssigned P_fwd; ECompleted M_flow; ERefused M_louvain].
Proof.
  split; [split; [discriminate|auto]|]. split; [left; auto|].
  split; [eexists; vm_compute; reflexivity|reflexivity].
Qed.

(** ** C54 *)
Definition C54_statement : Prop :=
  exists net start stop dir o xs o' es,
    fs_new net VNone start stop dir = Some o /\
    Forall (fun x => fs_op_ok x /\ no_time_scale x) xs /\
    fs_history o xs = (o', es) /\ In (ECompleted M_inter) es.
Theorem C54_default_scale_never_computes :
  forall net start stop dir o xs o' es,
    fs_new net VNone start stop dir = Some o ->
    Forall (fun x => fs_op_ok x /\ no_time_scale x) xs -> fs_history o xs = (o', es) ->
    cur (tr o') <= LAPLAC /\ ~ In (ECompleted M_inter) es.
Proof. exact default_scale_stuck. Qed.
Print Assumptions C54_default_scale_never_computes.
Theorem C54_default_scale_refuted : ~ C54_statement.
Proof.
  intros (net & start & stop & dir & o & xs & o' & es & Hn & Hall & Hh & Hin).
  now apply (default_scale_stuck net start stop dir o xs o' es Hn Hall Hh).
Qed.
Print Assumptions C54_default_scale_refuted.
(** The default is usable when spelt out as the list containing None. *)
Theorem C54_explicit_none_partial :
  exists o o' es, fs_new VNone (VScales [None]) VNone VNone (VDir 0) = Some o /\
    fs_history o [OCall M_net plain; OCall M_lap plain; OCall M_inter plain] = (o', es) /\
    In (ECompleted M_inter) es.
Proof. eexists _, _, _. split; [reflexivity|]. split; [reflexivity|]. cbn. auto 6. Qed.
Print Assumptions C54_explicit_none_partial.

(** ** C57 *)
Definition C57_statement : Prop :=
  exists net ts start stop dir o xs o' es,
    fs_new net ts start stop dir = Some o /\
    Forall (fun x => fs_op_ok x /\ no_set_network x) xs /\
    fs_history o xs = (o', es) /\ In (ECompleted M_lap) es.
Theorem C57_given_network_never_starts :
  forall net ts start stop dir o xs o' es,
    fs_new net ts start stop dir = Some o ->
    Forall (fun x => fs_op_ok x /\ no_set_network x) xs -> fs_history o xs = (o', es) ->
    cur (tr o') = INITIAL /\ forall m, ~ In (ECompleted m) es.
Proof. exact never_starts. Qed.
Print Assumptions C57_given_network_never_starts.
Theorem C57_given_network_refuted : ~ C57_statement.
Proof.
  intros (net & ts & start & stop & dir & o & xs & o' & es & Hn & Hall & Hh & Hin).
  now apply (never_starts net ts start stop dir o xs o' es Hn Hall Hh) in Hin.
Qed.
Print Assumptions C57_given_network_refuted.
(** It works after an extra call of set_temporal_network without arguments. *)
Theorem C57_assigned_after_empty_call_partial :
  forall ts start stop dir o a b,
    fs_new VNone ts start stop dir = Some o -> a_kwargs a = false -> work_hd (a_work b) = WOk ->
    exists o' es, fs_history o [OCall M_net a; OAssign P_net VNet; OCall M_lap b] = (o', es) /\
      cur (tr o') = LAPLAC /\ In (ECompleted M_lap) es.
Proof. exact assigned_network_analysable. Qed.
Print Assumptions C57_assigned_after_empty_call_partial.
Example C57_nonvacuous :
  exists o, fs_new VNet (VScales [Some 1%num]) VTime VTime (VDir 0) = Some o /\
    no_set_network (OCall M_lap plain) /\
    snd (fs_history o [OCall M_lap plain]) = [ERefused M_lap].
Proof. eexists. split; [vm_compute; reflexivity|]. split; [discriminate|reflexivity]. Qed.
