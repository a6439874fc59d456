(** Property C179: what [FlowStability.set_flow_clustering] stores when the construction of some
    clusterings fails. *)
From Verif Require Import Base StateModel StateSpec StateProofs.

(** What happens inside a call with direction [z]: one outcome for reading the matrices of a time
    scale, which succeeds, then the outcome of making its backward clustering if the direction asks
    for it, then that of the forward one. *)
Definition inside (z : Z) (made : list (work * work)) : list work :=
  concat (map (fun p => WOk :: (if (z <=? 0)%Z then [fst p] else []) ++ (if (0 <=? z)%Z then [snd p] else [])) made).
(** the construction of a clustering of time scale [ts] succeeded *)
Definition succeeded (side : work * work -> work) (scales : list (option num)) (made : list (work * work)) (ts : option num) : Prop :=
  exists k p, nth_error scales k = Some ts /\ nth_error made k = Some p /\ side p = WOk.
(** the constructions end well or with a ValueError *)
Definition no_other (made : list (work * work)) : Prop := forall p, In p made -> fst p <> WOther /\ snd p <> WOther.

Lemma oeq_eq a b : oeq a b = true <-> a = b.
Proof. split; [|intros <-; apply oeq_refl]. destruct a as [x|], b as [y|]; cbn; try discriminate; [|reflexivity]. destruct (qeqb_spec x y) as [->|]; [reflexivity|discriminate]. Qed.
Lemma succeeded_cons side s l p made ts : succeeded side (s :: l) (p :: made) ts <-> (s = ts /\ side p = WOk) \/ succeeded side l made ts.
Proof.
  split.
  - intros ([|k] & q & H1 & H2 & H3); cbn in H1, H2; [left|right; exists k, q; auto]. injection H1 as ->. injection H2 as ->. auto.
  - intros [[-> H]|(k & q & H)]; [exists 0, p; auto|exists (S k), q; auto].
Qed.
Lemma inside_cons z p made : inside z (p :: made) = WOk :: (if (z <=? 0)%Z then [fst p] else []) ++ (if (0 <=? z)%Z then [snd p] else []) ++ inside z made.
Proof. unfold inside. cbn [map concat]. cbn [app]. now rewrite <- app_assoc. Qed.
(** the effect of one construction *)
Definition stored (ts : option num) (ok : bool) (before after : list (option num * bool)) : Prop :=
  after = if ok then (ts, true) :: before else before.
Lemma scale_run z ts l p made o es : f_dir (dat o) = z -> fst p <> WOther -> snd p <> WOther ->
  exists o1 es1, fs_run (flow_scales (ts :: l) (inside z (p :: made)) (dat o)) o es = fs_run (flow_scales l (inside z made) (dat o1)) o1 es1 /\
    f_net (dat o1) = f_net (dat o) /\ f_ts (dat o1) = f_ts (dat o) /\ f_dir (dat o1) = z /\
    stored ts ((z <=? 0)%Z && match fst p with WOk => true | _ => false end) (f_bwd (dat o)) (f_bwd (dat o1)) /\
    stored ts ((0 <=? z)%Z && match snd p with WOk => true | _ => false end) (f_fwd (dat o)) (f_fwd (dat o1)).
Proof.
  intros Hd Hb Hf. rewrite inside_cons. destruct o as [t [net sc dir fw bw]]. cbn in Hd. subst dir. destruct p as [b f]. cbn [fst snd] in *.
  cbn [flow_scales work_hd tl dat f_dir]. destruct (z <=? 0)%Z eqn:E1; destruct (0 <=? z)%Z eqn:E2; cbn [app tl work_hd];
    destruct b; try congruence; destruct f; try congruence;
    (eexists (mkO _ (mkF net sc z _ _)), _; split; [cbn; rewrite ?E2; cbn; reflexivity|]; cbn; repeat split).
Qed.
Lemma flow_scales_made z l : forall made o es, f_dir (dat o) = z -> length made = length l -> no_other made ->
  exists o' es', fs_run (flow_scales l (inside z made) (dat o)) o es = (o', true, es') /\
    f_net (dat o') = f_net (dat o) /\ f_ts (dat o') = f_ts (dat o) /\ f_dir (dat o') = z /\
    (forall ts, ((z <= 0)%Z /\ succeeded fst l made ts -> dlook (f_bwd (dat o')) ts = Some true) /\
                (~ ((z <= 0)%Z /\ succeeded fst l made ts) -> dlook (f_bwd (dat o')) ts = dlook (f_bwd (dat o)) ts)) /\
    (forall ts, ((0 <= z)%Z /\ succeeded snd l made ts -> dlook (f_fwd (dat o')) ts = Some true) /\
                (~ ((0 <= z)%Z /\ succeeded snd l made ts) -> dlook (f_fwd (dat o')) ts = dlook (f_fwd (dat o)) ts)).
Proof.
  induction l as [|s l IH]; intros [|p made] o es Hd HL Hn; try discriminate HL.
  - exists o, es. split; [reflexivity|]. repeat (split; [auto; fail|]). split; intros ts; (split; [intros (_ & k & q & H & _); destruct k; discriminate H|reflexivity]).
  - destruct (Hn p (or_introl eq_refl)) as [Hb Hf]. destruct (scale_run z s l p made o es Hd Hb Hf) as (o1 & es1 & E & N1 & T1 & D1 & B1 & F1).
    destruct (IH made o1 es1 D1 ltac:(cbn in HL; lia) (fun q Hq => Hn q (or_intror Hq))) as (o' & es' & E' & N2 & T2 & D2 & B2 & F2).
    exists o', es'. rewrite E. split; [exact E'|]. split; [congruence|]. split; [congruence|]. split; [exact D2|].
    assert (HX : forall (c : bool) (P : Prop) (side : work * work -> work) before mid after,
      (c = true <-> P) -> stored s (c && match side p with WOk => true | _ => false end) before mid ->
      (forall ts, (P /\ succeeded side l made ts -> dlook after ts = Some true) /\ (~ (P /\ succeeded side l made ts) -> dlook after ts = dlook mid ts)) ->
      (side p <> WOther) -> (forall ts, {succeeded side l made ts} + {~ succeeded side l made ts}) ->
      forall ts, (P /\ succeeded side (s :: l) (p :: made) ts -> dlook after ts = Some true) /\ (~ (P /\ succeeded side (s :: l) (p :: made) ts) -> dlook after ts = dlook before ts)).
    { intros c P side before mid after Hc Hs HA Ho Hdec ts. rewrite succeeded_cons. unfold stored in Hs. destruct (HA ts) as [H1 H2]. destruct (Hdec ts) as [Hy|Hno].
      - split; [intros [HP _]; now apply H1|]. intros Hx. assert (HP : ~ P) by tauto. rewrite H2 by tauto. destruct c; [tauto|]. now rewrite Hs.
      - split.
        + intros [HP [[Es Ew]|Hy]]; [|contradiction]. rewrite H2 by tauto. rewrite Hs, Ew, Es. apply Hc in HP. rewrite HP. cbn [andb dlook]. now rewrite oeq_refl.
        + intros Hx. rewrite H2 by tauto. rewrite Hs. destruct c; [|reflexivity]. destruct (side p) eqn:Ew; cbn [andb]; try reflexivity. cbn [dlook]. destruct (oeq s ts) eqn:Eo; [|reflexivity].
          exfalso. apply Hx. apply oeq_eq in Eo. split; [tauto|]. left. auto. }
    assert (HD : forall side ts, {succeeded side l made ts} + {~ succeeded side l made ts}).
    { intros side ts. clear. revert made. induction l as [|x l IH]; intros made; [right; intros (k & q & H & _); destruct k; discriminate H|]. destruct made as [|p made]; [right; intros (k & q & _ & H & _); destruct k; discriminate H|].
      destruct (IH made) as [H|H]; [left; apply succeeded_cons; auto|]. destruct (oeq x ts) eqn:Eo; [|right; rewrite succeeded_cons; intros [[E0 _]|E0]; [apply oeq_eq in E0; congruence|contradiction]].
      apply oeq_eq in Eo. destruct (side p) eqn:Ew; [left; apply succeeded_cons; auto| |]; right; rewrite succeeded_cons; intros [[_ E0]|E0]; try contradiction; congruence. }
    split.
    + apply (HX (z <=? 0)%Z (z <= 0)%Z fst _ _ _ (Z.leb_le z 0) B1 B2 Hb (HD fst)).
    + apply (HX (0 <=? z)%Z (0 <= z)%Z snd _ _ _ (Z.leb_le 0 z) F1 F2 Hf (HD snd)).
Qed.

(** * C179 *)
(** A completed call leaves a clustering exactly where one has just been made. *)
Definition C179_statement : Prop :=
  forall net ts start stop dir o0 xs o es made a o' es',
    fs_new net ts start stop dir = Some o0 -> fs_history o0 xs = (o, es) ->
    length made = length (f_ts (dat o)) -> a_work a = inside (f_dir (dat o)) made ->
    fs_step o (OCall M_flow a) = (o', es') -> In (ECompleted M_flow) es' ->
    forall ts, In ts (f_ts (dat o)) ->
      ((f_dir (dat o) <= 0)%Z -> dlook (f_bwd (dat o')) ts = Some true -> succeeded fst (f_ts (dat o)) made ts) /\
      ((0 <= f_dir (dat o))%Z -> dlook (f_fwd (dat o')) ts = Some true -> succeeded snd (f_ts (dat o)) made ts).
(** An analysis; then another network is given and the steps repeated, but this time no clustering can
    be made: the call completes, and find_louvain_clustering completes with the clusterings of the
    first network. *)
Definition again (w : list work) : list fs_op :=
  [OCall M_lap plain; OCall M_inter plain; OCall M_flow (mkFC true None false w)].
Definition two_networks : list fs_op := [OCall M_net plain] ++ again [] ++ [OCall M_louvain plain; OAssign P_net VNet] ++ [OCall M_lap plain; OCall M_inter plain].
Definition fs179 : fs_obj := match fs_new VNone (VScales [Some 1%num]) VNone VNone (VDir 0) with Some o => o | None => fs_empty end.
Definition failing : fscall := mkFC true None false [WOk; WValueError; WValueError].
Theorem C179_stale_refuted : ~ C179_statement.
Proof.
  intros H. destruct (fs_history fs179 two_networks) as [o es] eqn:E. destruct (fs_step o (OCall M_flow failing)) as [o' es'] eqn:E'.
  assert (Ed : dat o = mkF true [Some 1%num] 0 [(Some 1%num, true)] [(Some 1%num, true)]) by (change o with (fst (o, es)); rewrite <- E; vm_compute; reflexivity).
  assert (Ee : es' = [ECompleted M_flow]) by (vm_compute in E; injection E as <- <-; vm_compute in E'; injection E' as <- <-; reflexivity).
  assert (Eb : dlook (f_bwd (dat o')) (Some 1%num) = Some true) by (vm_compute in E; injection E as <- <-; vm_compute in E'; injection E' as <- <-; vm_compute; reflexivity).
  specialize (H VNone (VScales [Some 1%num]) VNone VNone (VDir 0) fs179 two_networks o es [(WValueError, WValueError)] failing o' es' ltac:(reflexivity) E).
  rewrite Ed in H. cbn [f_dir f_ts length] in H. specialize (H eq_refl eq_refl E' ltac:(rewrite Ee; now left) (Some 1%num) (or_introl eq_refl)).
  destruct (proj1 H ltac:(lia) Eb) as (k & p & _ & Hp & Hs). destruct k as [|[|k]]; try discriminate Hp. injection Hp as <-. discriminate Hs.
Qed.
Print Assumptions C179_stale_refuted.
Example C179_first_network_used : snd (fs_history fs179 (two_networks ++ [OCall M_flow failing; OCall M_louvain plain])) =
  [EAssigned P_net; ECompleted M_net; ECompleted M_lap; ECompleted M_inter; EAssigned P_bwd; EAssigned P_fwd; ECompleted M_flow; ECompleted M_louvain;
   EAssigned P_net; ECompleted M_lap; ECompleted M_inter; ECompleted M_flow; ECompleted M_louvain].
Proof. vm_compute. reflexivity. Qed.

(** A failing construction stops neither the call nor the other constructions: a call whose
    constructions end well or with a ValueError completes, stores a clustering where the construction
    succeeded, and leaves all other entries as they were, be it none or one of an earlier analysis. *)
Theorem C179_made_partial : forall o made a, ready fs_class (tr o) M_flow -> f_net (dat o) = true -> length made = length (f_ts (dat o)) -> no_other made ->
  a_work a = inside (f_dir (dat o)) made ->
  exists o' es', fs_step o (OCall M_flow a) = (o', es' ++ [ECompleted M_flow]) /\ cur (tr o') = CLUSTERING /\
    f_net (dat o') = true /\ f_ts (dat o') = f_ts (dat o) /\ f_dir (dat o') = f_dir (dat o) /\
    forall ts,
      ((f_dir (dat o) <= 0)%Z /\ succeeded fst (f_ts (dat o)) made ts -> dlook (f_bwd (dat o')) ts = Some true) /\
      (~ ((f_dir (dat o) <= 0)%Z /\ succeeded fst (f_ts (dat o)) made ts) -> dlook (f_bwd (dat o')) ts = dlook (f_bwd (dat o)) ts) /\
      ((0 <= f_dir (dat o))%Z /\ succeeded snd (f_ts (dat o)) made ts -> dlook (f_fwd (dat o')) ts = Some true) /\
      (~ ((0 <= f_dir (dat o))%Z /\ succeeded snd (f_ts (dat o)) made ts) -> dlook (f_fwd (dat o')) ts = dlook (f_fwd (dat o)) ts).
Proof.
  intros o made a Hr Hnet HL Ho Ha. destruct (flow_scales_made (f_dir (dat o)) (f_ts (dat o)) made o [] eq_refl HL Ho) as (o1 & es1 & E & N1 & T1 & D1 & B1 & F1).
  assert (ER : fs_run (fs_body M_flow a (dat o)) o [] = (o1, true, es1)) by (cbn [fs_body M_flow]; rewrite Hnet, Ha; exact E).
  pose proof (call_done o M_flow a o1 es1 ltac:(cbv; lia) Hr ER) as HS.
  exists (mkO (mkT (m_next (nth_meth fs_class M_flow)) (pset (tr o1))) (dat o1)), es1. split; [exact HS|]. split; [reflexivity|]. cbn [dat]. split; [congruence|]. split; [exact T1|]. split; [exact D1|].
  intros ts. destruct (B1 ts), (F1 ts). auto.
Qed.
Print Assumptions C179_made_partial.
(** Without an entry of an earlier analysis, the next step does not complete after a failure. *)
Lemma louvain_scales_missing l : forall w d o es, (exists ts, In ts l /\ (((f_dir d <= 0)%Z /\ dlook (f_bwd d) ts = None) \/ ((0 <= f_dir d)%Z /\ dlook (f_fwd d) ts = None))) ->
  fs_run (louvain_scales l w d) o es = (o, false, es).
Proof.
  induction l as [|s l IH]; intros w d o es (ts & Hin & Hm); [destruct Hin|]. cbn [louvain_scales].
  destruct Hin as [->|Hin].
  - destruct (Z.leb_spec (f_dir d) 0) as [Hz|Hz].
    + destruct (dlook (f_bwd d) ts) as [[]|]; [destruct (work_hd w)|..]; try reflexivity. destruct (Z.leb_spec 0 (f_dir d)) as [Hz2|Hz2]; [|destruct Hm as [[_ H]|[H _]]; [discriminate H|lia]]. destruct Hm as [[_ H']|[_ ->]]; [discriminate H'|reflexivity].
    + destruct (Z.leb_spec 0 (f_dir d)) as [H'|H']; [|lia]. destruct Hm as [[H _]|[_ ->]]; [lia|reflexivity].
  - assert (HE : forall w', fs_run (louvain_scales l w' d) o es = (o, false, es)) by (intros; apply IH; eauto).
    destruct (f_dir d <=? 0)%Z; [destruct (dlook (f_bwd d) s) as [[]|]; [destruct (work_hd w)|..]; try reflexivity|]; destruct (0 <=? f_dir d)%Z; try apply HE; destruct (dlook (f_fwd d) s) as [[]|]; try reflexivity;
      match goal with |- context [work_hd ?x] => destruct (work_hd x) end; try reflexivity; apply HE.
Qed.
Theorem C179_noticed : forall o made a b, ready fs_class (tr o) M_flow -> f_net (dat o) = true -> length made = length (f_ts (dat o)) -> no_other made ->
  a_work a = inside (f_dir (dat o)) made ->
  forall ts, In ts (f_ts (dat o)) ->
    ((f_dir (dat o) <= 0)%Z /\ ~ succeeded fst (f_ts (dat o)) made ts /\ dlook (f_bwd (dat o)) ts = None) \/
    ((0 <= f_dir (dat o))%Z /\ ~ succeeded snd (f_ts (dat o)) made ts /\ dlook (f_fwd (dat o)) ts = None) ->
  ~ In (ECompleted M_louvain) (snd (fs_step (fst (fs_step o (OCall M_flow a))) (OCall M_louvain b))).
Proof.
  intros o made a b Hr Hnet HL Ho Ha ts Hin Hm. destruct (C179_made_partial o made a Hr Hnet HL Ho Ha) as (o' & es' & E & _ & _ & T1 & D1 & HT). rewrite E. cbn [fst].
  destruct (HT ts) as (_ & H2 & _ & H4).
  assert (HM : fs_run (louvain_scales (f_ts (dat o')) (a_work b) (dat o')) o' [] = (o', false, [])).
  { apply louvain_scales_missing. exists ts. rewrite T1, D1. split; [exact Hin|]. destruct Hm as [(Hz & Hs & Hd)|(Hz & Hs & Hd)]; [left|right]; (split; [exact Hz|]).
    - rewrite H2 by tauto. exact Hd.
    - rewrite H4 by tauto. exact Hd. }
  unfold fs_step, step, call. fold fs_run. destruct (cur (tr o') <? m_min (nth_meth fs_class M_louvain)); [intros [H|[]]; discriminate H|].
  destruct (missing _ _ _); [|intros [H|[]]; discriminate H]. change (fs_body M_louvain b (dat o')) with (louvain_scales (f_ts (dat o')) (a_work b) (dat o')). rewrite HM. intros [H|[]]. discriminate H.
Qed.
Print Assumptions C179_noticed.
(** two time scales, both directions; three of the four constructions fail *)
Definition fs179b : fs_obj := match fs_new VNone (VScales [Some 1%num; None]) VNone VNone (VDir 0) with Some o => fst (fs_history o [OCall M_net plain; OCall M_lap plain; OCall M_inter plain]) | None => fs_empty end.
Example C179_applies : let made := [(WValueError, WOk); (WValueError, WValueError)] in let a := mkFC true None false [WOk; WValueError; WOk; WOk; WValueError; WValueError] in
  ready fs_class (tr fs179b) M_flow /\ f_net (dat fs179b) = true /\ length made = length (f_ts (dat fs179b)) /\ no_other made /\ a_work a = inside (f_dir (dat fs179b)) made /\
  In None (f_ts (dat fs179b)) /\ dlook (f_bwd (dat fs179b)) None = None /\
  let o' := fst (fs_step fs179b (OCall M_flow a)) in
  dlook (f_fwd (dat o')) (Some 1%num) = Some true /\ dlook (f_bwd (dat o')) (Some 1%num) = None /\ dlook (f_fwd (dat o')) None = None /\
  snd (fs_step o' (OCall M_louvain plain)) = [ERefused M_louvain].
Proof.
  cbv zeta. split; [apply ready_iff; [vm_compute; lia|split; reflexivity]|]. split; [reflexivity|]. split; [reflexivity|].
  split; [intros p [<-|[<-|[]]]; cbn; split; discriminate|]. split; [reflexivity|]. split; [cbn; auto|]. split; [reflexivity|]. vm_compute. auto.
Qed.

(** ** The step before: compute_inter_transition_matrices *)
(** Nothing is swallowed there: the step completes if and only if the matrices of every time scale
    were computed; when it raises the object is as before and the step can be repeated. *)
Lemma per_scale_run n : forall w o es,
  fs_run (per_scale_work n w) o es = (o, forallb (fun k => match nth k w WOk with WOk => true | _ => false end) (seq 0 n), es).
Proof.
  induction n as [|n IH]; intros w o es; [reflexivity|]. cbn [per_scale_work seq forallb]. rewrite <- seq_shift.
  replace (forallb (fun k => match nth k w WOk with WOk => true | _ => false end) (map S (seq 0 n)))
    with (forallb (fun k => match nth k (tl w) WOk with WOk => true | _ => false end) (seq 0 n)).
  2:{ clear IH. induction (seq 0 n) as [|k l IHl]; [reflexivity|]. cbn [map forallb]. rewrite IHl. f_equal. destruct w as [|x w]; [destruct k; reflexivity|reflexivity]. }
  assert (E : work_hd w = nth 0 w WOk) by (destruct w; reflexivity). rewrite E. destruct (nth 0 w WOk); cbn [andb]; [apply IH|reflexivity|reflexivity].
Qed.
Theorem C179_every_scale : forall o a, ready fs_class (tr o) M_inter -> f_net (dat o) = true -> a_ts a = None -> a_lamda a = false ->
  ((forall k, k < length (f_ts (dat o)) -> nth k (a_work a) WOk = WOk) ->
     exists o', fs_step o (OCall M_inter a) = (o', [ECompleted M_inter]) /\ cur (tr o') = INTER_T /\ dat o' = dat o) /\
  ((exists k, k < length (f_ts (dat o)) /\ nth k (a_work a) WOk <> WOk) -> fs_step o (OCall M_inter a) = (o, [ERaised M_inter])).
Proof.
  intros o a Hr Hnet Ht Hl.
  assert (ER : fs_run (fs_body M_inter a (dat o)) o [] = (o, forallb (fun k => match nth k (a_work a) WOk with WOk => true | _ => false end) (seq 0 (length (f_ts (dat o)))), []))
    by (cbn [fs_body M_inter]; rewrite Hnet, Ht, Hl; apply per_scale_run).
  split.
  - intros H. assert (E : forallb (fun k => match nth k (a_work a) WOk with WOk => true | _ => false end) (seq 0 (length (f_ts (dat o)))) = true).
    { apply forallb_forall. intros k Hk. apply in_seq in Hk. now rewrite H by lia. }
    rewrite E in ER. pose proof (call_done o M_inter a o [] ltac:(cbv; lia) Hr ER) as HS. eexists. split; [exact HS|]. split; reflexivity.
  - intros (k & Hk & Hn). assert (E : forallb (fun k => match nth k (a_work a) WOk with WOk => true | _ => false end) (seq 0 (length (f_ts (dat o)))) = false).
    { apply not_true_iff_false. intros H. rewrite forallb_forall in H. specialize (H k ltac:(apply in_seq; lia)). cbv beta in H. destruct (nth k (a_work a) WOk); congruence. }
    rewrite E in ER. apply ready_iff in Hr; [|cbv; lia]. destruct Hr as [H1 H2]. unfold fs_step, step, call. fold fs_run. rewrite H1, H2, ER. reflexivity.
Qed.
Print Assumptions C179_every_scale.
(** the matrices of the second of two time scales can not be computed *)
Definition fs179c : fs_obj := match fs_new VNone (VScales [Some 1%num; None]) VNone VNone (VDir 0) with Some o => fst (fs_history o [OCall M_net plain; OCall M_lap plain]) | None => fs_empty end.
Example C179_every_scale_applies : ready fs_class (tr fs179c) M_inter /\ f_net (dat fs179c) = true /\ length (f_ts (dat fs179c)) = 2 /\
  snd (fs_step fs179c (OCall M_inter (mkFC true None false [WOk; WOther]))) = [ERaised M_inter] /\
  snd (fs_step fs179c (OCall M_inter (mkFC true None false [WOk; WOk]))) = [ECompleted M_inter].
Proof. split; [apply ready_iff; [vm_compute; lia|split; reflexivity]|]. repeat split; reflexivity. Qed.
