(** C189: the values that a FlowStability object accepts and holds (flow_stability.py l.211-622). *)
From Verif Require Import Base StateModel StateSpec StateProofs.

(** ** Vocabulary *)
(** time scales are positive or None, the direction is -1, 0 or 1 *)
Definition holds_valid (o : fs_obj) : Prop :=
  (forall t, In (Some t) (f_ts (dat o)) -> (0 < t)%num) /\ (f_dir (dat o) = -1 \/ f_dir (dat o) = 0 \/ f_dir (dat o) = 1)%Z.
(** values that the documentation allows *)
Inductive acceptable : nat -> fsval -> Prop :=
| ok_net v : acceptable P_net v
| ok_no_scale : acceptable P_ts VNone
| ok_scales l : (forall t, In (Some t) l -> (0 < t)%num) -> acceptable P_ts (VScales l)
| ok_start v : acceptable P_start v
| ok_stop v : acceptable P_stop v
| ok_no_dir : acceptable P_dir VNone
| ok_dir z : (z = -1 \/ z = 0 \/ z = 1)%Z -> acceptable P_dir (VDir z)
| ok_fwd ts : acceptable P_fwd (VFlow ts (Some false))
| ok_fwd_other ts : acceptable P_fwd (VFlow ts None)
| ok_bwd ts : acceptable P_bwd (VFlow ts (Some true))
| ok_bwd_other ts : acceptable P_bwd (VFlow ts None).

Definition scales_okb (l : list (option num)) : bool := forallb (fun x => match x with None => true | Some t => qltb 0%num t end) l.
Lemma scales_okb_spec l : scales_okb l = true <-> forall t, In (Some t) l -> (0 < t)%num.
Proof.
  unfold scales_okb. rewrite forallb_forall. split.
  - intros H t Ht. specialize (H _ Ht). cbn in H. now destruct (qltb_spec 0%num t).
  - intros H [t|] Hx; [|reflexivity]. destruct (qltb_spec 0%num t) as [|N]; [reflexivity|]. exfalso. now apply N, H.
Qed.
Lemma dir_okb z : (Z.eqb z (-1) || Z.eqb z 0 || Z.eqb z 1)%bool = true <-> (z = -1 \/ z = 0 \/ z = 1)%Z.
Proof. rewrite !orb_true_iff, !Z.eqb_eq. tauto. Qed.

(** * C189 *)
(** exactly the acceptable values are accepted, and a refused value changes nothing *)
Theorem C189_assignments : forall o i v, i < 7 ->
  (acceptable i v -> snd (fs_assign o i v) = true) /\ (~ acceptable i v -> fs_assign o i v = (o, false)).
Proof.
  intros [t d] i v Hi.
  unfold fs_assign, assign. cbn [tr dat].
  assert (HA : acceptable i v <-> snd (fs_setter i v d) = true).
  { destruct i as [|[|[|[|[|[|[|i]]]]]]]; [..|lia]; cbn [fs_setter]; split; intros H; try (inversion H; subst; reflexivity).
    - destruct v; reflexivity.
    - constructor.
    - inversion H as [ | |l Hl| | | | | | | | ]; subst; [reflexivity|]. change (forallb _ l) with (scales_okb l). now rewrite (proj2 (scales_okb_spec l) Hl).
    - destruct v as [| | |l| | | |]; try discriminate H; [constructor|]. change (forallb _ l) with (scales_okb l) in H. constructor. apply scales_okb_spec. now destruct (scales_okb l).
    - constructor.
    - constructor.
    - inversion H as [ | | | | | |z Hz| | | | ]; subst; [reflexivity|]. now rewrite (proj2 (dir_okb z) Hz).
    - destruct v as [| | | | | |z|]; try discriminate H; [constructor|]. constructor. apply dir_okb. now destruct (Z.eqb z (-1) || Z.eqb z 0 || Z.eqb z 1)%bool.
    - destruct v as [| | | | | | |ts [[|]|]]; try discriminate H; constructor.
    - destruct v as [| | | | | | |ts [[|]|]]; try discriminate H; constructor. }
  assert (HD : snd (fs_setter i v d) = false -> fst (fs_setter i v d) = d).
  { clear HA. destruct i as [|[|[|[|[|[|[|i]]]]]]]; [..|lia]; cbn [fs_setter]; destruct v as [| | |l| | |z|ts [[|]|]]; cbn [fst snd]; try congruence; try reflexivity;
      match goal with |- context [if ?b then _ else _] => destruct b end; cbn; congruence. }
  rewrite HA. destruct (fs_setter i v d) as [d' [|]] eqn:E; cbn [fst snd] in *.
  - split; [reflexivity|congruence].
  - split; [congruence|]. intros _. now rewrite HD.
Qed.

(** bodies change the data through assignments only *)
Fixpoint only_assigns (b : body fsdata fsval) : Prop :=
  match b with BAssign i v k => i < 7 /\ forall d ok, only_assigns (k d ok) | BData _ _ => False | _ => True end.
Lemma scale_work_assigns n : forall w, only_assigns (per_scale_work n w).
Proof. induction n as [|n IH]; intros w; cbn; [exact I|]. destruct (work_hd w); [apply IH|exact I..]. Qed.
Lemma flow_scales_assigns l : forall w d, only_assigns (flow_scales l w d).
Proof.
  induction l as [|ts l IH]; intros w d; cbn [flow_scales]; [exact I|]. destruct (work_hd w); [|exact I..].
  assert (HF : forall w d, only_assigns (if (0 <=? f_dir d)%Z then match work_hd w with WOk => BAssign P_fwd (VFlow ts (Some false)) (fun d' _ => flow_scales l (tl w) d')
     | WValueError => flow_scales l (tl w) d | WOther => BRaise end else flow_scales l w d)).
  { intros w' d'. destruct (0 <=? f_dir d')%Z; [|apply IH]. destruct (work_hd w'); cbn [only_assigns]; [|apply IH|exact I]. split; [unfold P_fwd; lia|]. intros d'' _. apply IH. }
  cbv zeta. destruct (f_dir d <=? 0)%Z; [|apply HF]. destruct (work_hd (tl w)); cbn [only_assigns]; [|apply HF|exact I]. split; [unfold P_bwd; lia|]. intros d' _. apply HF.
Qed.
Lemma louvain_scales_assigns l : forall w d, only_assigns (louvain_scales l w d).
Proof.
  induction l as [|ts l IH]; intros w d; cbn [louvain_scales]; [exact I|]. cbv zeta.
  destruct (f_dir d <=? 0)%Z; [destruct (dlook (f_bwd d) ts) as [[|]|]; [|exact I..]; destruct (work_hd w); [|exact I..]|];
    (destruct (0 <=? f_dir d)%Z; [|apply IH]); (destruct (dlook (f_fwd d) ts) as [[|]|]; [|exact I..]);
    match goal with |- context [work_hd ?x] => destruct (work_hd x) end; try exact I; apply IH.
Qed.
Lemma fs_body_assigns m a d : only_assigns (fs_body m a d).
Proof.
  destruct m as [|[|[|[|m]]]]; cbn [fs_body].
  - destruct (a_kwargs a); [destruct (work_hd (a_work a))|]; cbn; try exact I; (split; [unfold P_net; lia|intros; exact I]).
  - destruct (f_net d); [destruct (work_hd (a_work a))|]; exact I.
  - destruct (f_net d); [|exact I]. destruct (a_ts a) as [v|].
    + destruct v; try apply scale_work_assigns; (cbn [only_assigns]; split; [unfold P_ts; lia|]; intros d' [|]; [apply scale_work_assigns|exact I]).
    + destruct (a_lamda a); [exact I|apply scale_work_assigns].
  - destruct (f_net d); [apply flow_scales_assigns|]. destruct (f_ts d); exact I.
  - apply louvain_scales_assigns.
Qed.
Lemma assign_holds o i v o' ok : i < 7 -> holds_valid o -> fs_assign o i v = (o', ok) -> holds_valid o'.
Proof.
  intros Hi Ho. destruct o as [t d]. unfold fs_assign, assign. cbn [tr dat]. unfold holds_valid in *. cbn [dat] in Ho.
  assert (HS : let d' := fst (fs_setter i v d) in (forall t, In (Some t) (f_ts d') -> (0 < t)%num) /\ (f_dir d' = -1 \/ f_dir d' = 0 \/ f_dir d' = 1)%Z).
  { destruct i as [|[|[|[|[|[|[|i]]]]]]]; [..|lia]; cbn [fs_setter]; destruct v as [| | |l| | |z|ts [[|]|]]; cbn [fst f_ts f_dir]; try exact Ho.
    - split; [intros x [[=]|[]]|apply Ho].
    - change (forallb _ l) with (scales_okb l). destruct (scales_okb l) eqn:E; cbn [fst f_ts f_dir]; [|exact Ho]. split; [now apply scales_okb_spec|apply Ho].
    - split; [apply Ho|]. auto.
    - destruct (Z.eqb z (-1) || Z.eqb z 0 || Z.eqb z 1)%bool eqn:E; cbn [fst f_ts f_dir]; [|exact Ho]. split; [apply Ho|now apply dir_okb]. }
  destruct (fs_setter i v d) as [d' [|]]; intros [= <- _]; exact HS.
Qed.
Lemma run_holds b : forall o es o' ok es', only_assigns b -> holds_valid o -> run_body fs_class fsdata fsval fs_setter fs_is_none b o es = (o', ok, es') -> holds_valid o'.
Proof.
  induction b as [i v k IH|d k IH| |]; intros o es o' ok es' Hb Ho E; cbn [run_body only_assigns] in *; [|destruct Hb|congruence|congruence].
  destruct Hb as [Hi Hk]. destruct (assign fs_class fsdata fsval fs_setter fs_is_none o i v) as [o1 ok1] eqn:EA.
  refine (IH _ _ o1 _ o' ok es' (Hk _ _) _ E). now apply (assign_holds o i v o1 ok1).
Qed.
(** after the constructor and any operations, also failing ones *)
Theorem C189_reachable_values : forall net ts start stop dir o xs o' es, fs_new net ts start stop dir = Some o -> Forall fs_op_ok xs -> fs_history o xs = (o', es) -> holds_valid o'.
Proof.
  intros net ts start stop dir o xs o' es HN Hall HF.
  apply (fs_history_inv holds_valid fs_op_ok) with (xs := xs) (o := o) (es := es); [|clear HF|exact Hall|exact HF].
  - intros [t d] [i v|m a] o2 es2 Ho Hok E; cbn [fs_op_ok] in Hok; unfold fs_step, step in E.
    + destruct (assign fs_class fsdata fsval fs_setter fs_is_none (mkO t d) i v) as [o3 ok3] eqn:EA. injection E as <- _. exact (assign_holds _ i v o3 ok3 Hok Ho EA).
    + unfold call in E. destruct (cur (tr (mkO t d)) <? m_min (nth_meth fs_class m)); [congruence|]. destruct (missing _ _ _); [|congruence].
      destruct (run_body fs_class fsdata fsval fs_setter fs_is_none (fs_body m a (dat (mkO t d))) (mkO t d) []) as [[o3 ok3] es3] eqn:ER.
      assert (H3 := run_holds _ _ _ _ _ _ (fs_body_assigns m a d) Ho ER). destruct ok3; injection E as <- _; exact H3.
  - unfold fs_new in HN. cbn [fs_assign_all] in HN.
    assert (H0 : holds_valid fs_empty) by (split; [intros t []|cbn; auto]).
    revert HN H0. generalize fs_empty. intros o0 HN H0.
    destruct (fs_assign o0 P_net net) as [o1 [|]] eqn:E1; [|discriminate]. apply assign_holds in E1; [|unfold P_net; lia|exact H0].
    destruct (fs_assign o1 P_start start) as [o2 [|]] eqn:E2; [|discriminate]. apply assign_holds in E2; [|unfold P_start; lia|exact E1].
    destruct (fs_assign o2 P_stop stop) as [o3 [|]] eqn:E3; [|discriminate]. apply assign_holds in E3; [|unfold P_stop; lia|exact E2].
    destruct (fs_assign o3 P_ts ts) as [o4 [|]] eqn:E4; [|discriminate]. apply assign_holds in E4; [|unfold P_ts; lia|exact E3].
    destruct (fs_assign o4 P_dir dir) as [o5 [|]] eqn:E5; [|discriminate]. apply assign_holds in E5; [|unfold P_dir; lia|exact E4]. congruence.
Qed.

(** * C190: a clustering of the wrong direction is replaced by None (docstrings l.567-570, l.607-610) *)
Definition C190_statement : Prop := forall (o : fs_obj) ts (back : bool), exists o',
  fs_assign o (if back then P_bwd else P_fwd) (VFlow ts (Some (negb back))) = (o', true) /\
  dlook (if back then f_bwd (dat o') else f_fwd (dat o')) ts = Some false.
Theorem C190_wrong_direction_refuted : ~ C190_statement.
Proof. intros H. destruct (H fs_empty None true) as (o' & E & _). discriminate E. Qed.
(** the assertion fails and the object stays as it was *)
Theorem C190_wrong_direction_raises : forall (o : fs_obj) ts (back : bool), fs_assign o (if back then P_bwd else P_fwd) (VFlow ts (Some (negb back))) = (o, false).
Proof. intros o ts back. apply C189_assignments; destruct back; try (unfold P_fwd, P_bwd; lia); intros H; inversion H. Qed.
(** clusterings of the right direction are stored under their time scale, other objects become None, and nothing else changes *)
Theorem C190_stored_partial : forall (o : fs_obj) ts (back : bool) kind, kind = Some back \/ kind = None -> exists o',
  fs_assign o (if back then P_bwd else P_fwd) (VFlow ts kind) = (o', true) /\
  (forall s, dlook (if back then f_bwd (dat o') else f_fwd (dat o')) s =
     if oeq ts s then Some (match kind with Some _ => true | None => false end) else dlook (if back then f_bwd (dat o) else f_fwd (dat o)) s) /\
  (if back then f_fwd (dat o') = f_fwd (dat o) else f_bwd (dat o') = f_bwd (dat o)) /\
  f_net (dat o') = f_net (dat o) /\ f_ts (dat o') = f_ts (dat o) /\ f_dir (dat o') = f_dir (dat o).
Proof.
  intros [t d] ts back kind Hk. destruct back; destruct Hk as [-> | ->]; eexists; (split; [reflexivity|]); cbn; repeat split.
Qed.
Example C189_applies : exists o o' es, fs_new VNet (VScales [None; Some 1%num]) VNone VTime (VDir 1) = Some o /\
  fs_history o [OAssign P_ts (VScales [Some 1%num; Some 0%num]); OAssign P_dir (VDir 2); OAssign P_ts (VScales [Some (qn 3)])] = (o', es) /\
  f_ts (dat o') = [Some (qn 3)] /\ f_dir (dat o') = 1%Z /\ es = [EAssigned P_ts].
Proof. eexists _, _, _. split; [reflexivity|]. split; [reflexivity|]. repeat split. Qed.
Example C190_applies : exists o, fs_assign fs_empty P_fwd (VFlow (Some 1%num) (Some false)) = (o, true) /\ dlook (f_fwd (dat o)) (Some 1%num) = Some true /\
  fs_assign o P_fwd (VFlow (Some 1%num) (Some true)) = (o, false).
Proof. eexists. split; [reflexivity|]. split; reflexivity. Qed.
Print Assumptions C189_assignments.
Print Assumptions C189_reachable_values.
Print Assumptions C190_wrong_direction_refuted.
Print Assumptions C190_wrong_direction_raises.
Print Assumptions C190_stored_partial.
