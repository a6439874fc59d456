From Verif Require Import Base StateModel StateSpec.

Lemma positions_In {A} (f : A -> bool) (d : A) : forall l i j,
  In j (positions f i l) <-> exists k, j = i + k /\ k < length l /\ f (nth k l d) = true.
Proof.
  induction l as [|a l IH]; intros i j; simpl.
  - split; [intros []|intros (k & _ & Hk & _); lia].
  - assert (H : In j (positions f (S i) l) <->
        exists k, j = i + S k /\ k < length l /\ f (nth k l d) = true).
    { rewrite IH. split; intros (k & E & H); exists k; (split; [lia|exact H]). }
    destruct (f a) eqn:E; simpl; rewrite H.
    + split.
      * intros [<-|(k & Ek & Hk & Hf)]; [exists 0|exists (S k)]; simpl; repeat split; try lia; assumption.
      * intros ([|k] & Ek & Hk & Hf); [left; lia|right; exists k; repeat split; try lia; exact Hf].
    + split.
      * intros (k & Ek & Hk & Hf). exists (S k). simpl. repeat split; try lia; assumption.
      * intros ([|k] & Ek & Hk & Hf); [simpl in Hf; congruence|].
        exists k. repeat split; try lia. exact Hf.
Qed.

Lemma missing_nil c t s : known_state c s = true ->
  (missing c t s = [] <->
   forall i, i < length (c_props c) -> p_next (nth_prop c i) <= s -> pset t i = true).
Proof.
  intros Hk. unfold missing, props_required. rewrite Hk. split.
  - intros H i Hi Hp. destruct (pset t i) eqn:E; [reflexivity|].
    assert (Hin : In i (filter (fun i => negb (pset t i)) (positions (fun p => p_next p <=? s) 0 (c_props c)))).
    { apply filter_In. rewrite E. split; [|reflexivity]. apply (positions_In _ (mkP 0 true)).
      exists i. split; [lia|]. split; [exact Hi|]. now apply Nat.leb_le. }
    rewrite H in Hin. destruct Hin.
  - intros H. destruct (filter (fun i => negb (pset t i)) (positions (fun p => p_next p <=? s) 0 (c_props c)))
      as [|i l] eqn:E; [reflexivity|].
    assert (Hin : In i (i :: l)) by (left; reflexivity). rewrite <- E in Hin.
    apply filter_In in Hin. destruct Hin as [Hin Hn].
    apply (positions_In _ (mkP 0 true)) in Hin. destruct Hin as (k & Ek & Hk' & Hp). simpl in Ek. subst k.
    apply Nat.leb_le in Hp. rewrite (H i Hk' Hp) in Hn. discriminate.
Qed.

Lemma known_min c m : m < length (c_meths c) -> known_state c (m_min (nth_meth c m)) = true.
Proof.
  intros H. unfold known_state. apply orb_true_iff. right. apply existsb_exists.
  exists (nth_meth c m). split; [now apply nth_In|]. rewrite Nat.eqb_refl. reflexivity.
Qed.

Lemma ready_iff c t m : m < length (c_meths c) ->
  (ready c t m <-> (cur t <? m_min (nth_meth c m)) = false /\ missing c t (m_min (nth_meth c m)) = []).
Proof.
  intros H. unfold ready. rewrite (missing_nil c t _ (known_min c m H)), Nat.ltb_ge. reflexivity.
Qed.

(** ** C52 *)
Lemma fold_last (l : list nat) (a : option nat) :
  fold_left (fun _ i => Some i) l a = match l with [] => a | _ => Some (last l 0) end.
Proof.
  revert a. induction l as [|x l IH]; intros a; simpl; [reflexivity|]. rewrite IH.
  destruct l; reflexivity.
Qed.
Lemma next_method_spec c s m : next_method c s = Some m ->
  m < length (c_meths c) /\ m_min (nth_meth c m) <= s /\ known_state c s = true.
Proof.
  unfold next_method. destruct (known_state c s) eqn:Ek; [|discriminate]. rewrite fold_last.
  destruct (positions (fun m => m_min m <=? s) 0 (c_meths c)) as [|x l] eqn:E; [discriminate|].
  intros H. assert (H' : last (x :: l) 0 = m) by congruence. clear H.
  assert (Hin : In m (positions (fun m => m_min m <=? s) 0 (c_meths c))).
  { rewrite E, <- H'. destruct (exists_last (l := x :: l)) as (l' & y & El); [discriminate|].
    rewrite El, last_last. apply in_or_app. right. left. reflexivity. }
  apply (positions_In _ (mkM 0 0)) in Hin. destruct Hin as (k & Hk & Hl & Hm). simpl in Hk. subst k.
  apply Nat.leb_le in Hm. auto.
Qed.
Lemma next_ready c t m : state_next c t = ([], Some m) -> m < length (c_meths c) /\ ready c t m.
Proof.
  unfold state_next. intros H. injection H as Hm Hn. apply next_method_spec in Hn.
  destruct Hn as (Hl & Hle & Hk). split; [exact Hl|]. split; [exact Hle|].
  intros i Hi Hp. apply (proj1 (missing_nil c t (cur t) Hk) Hm); [exact Hi|lia].
Qed.
(** the advertised step is the furthest one available *)
Lemma positions_sorted {A} (f : A -> bool) : forall l i, LocallySorted lt (positions f i l) /\
  forall j, In j (positions f i l) -> i <= j.
Proof.
  induction l as [|a l IH]; intros i; simpl; [split; [constructor|intros j []]|].
  destruct (IH (S i)) as [Hs Hl]. destruct (f a).
  - split.
    + destruct (positions f (S i) l) as [|b r] eqn:E; constructor; [exact Hs|].
      specialize (Hl b). simpl in Hl. lia.
    + intros j [<-|Hj]; [lia|]. specialize (Hl j Hj). lia.
  - split; [exact Hs|]. intros j Hj. specialize (Hl j Hj). lia.
Qed.
Lemma sorted_last (l : list nat) x : LocallySorted lt l -> In x l -> x <= last l 0.
Proof.
  intros Hs. revert x. induction Hs as [|a|a b l Hs IH Hab]; intros x Hx.
  - destruct Hx.
  - simpl in *. lia.
  - change (last (a :: b :: l) 0) with (last (b :: l) 0). destruct Hx as [<-|Hx]; [|auto].
    specialize (IH b (or_introl eq_refl)). lia.
Qed.
Lemma next_method_last c s m m' : next_method c s = Some m ->
  m' < length (c_meths c) -> m_min (nth_meth c m') <= s -> m' <= m.
Proof.
  unfold next_method. destruct (known_state c s); [|discriminate]. rewrite fold_last. intros H Hl Hm.
  assert (Hin : In m' (positions (fun m => m_min m <=? s) 0 (c_meths c))).
  { apply (positions_In _ (mkM 0 0)). exists m'. split; [lia|]. split; [exact Hl|]. now apply Nat.leb_le. }
  pose proof (proj1 (positions_sorted (fun m => m_min m <=? s) (c_meths c) 0)) as Hs.
  destruct (positions (fun m => m_min m <=? s) 0 (c_meths c)) as [|x l]; [discriminate|].
  assert (H' : last (x :: l) 0 = m) by congruence. rewrite <- H'. now apply sorted_last.
Qed.

Section Instance.
Variables (c : cls) (data assignv callv : Type).
Variable setter : nat -> assignv -> data -> data * bool.
Variable is_none : nat -> assignv -> bool.
Variable mbody : nat -> callv -> data -> body data assignv.
Let assign' := assign c data assignv setter is_none.
Let run' := run_body c data assignv setter is_none.
Let call' := call c data assignv callv setter is_none mbody.
Let step' := step c data assignv callv setter is_none mbody.
Let hist' := history c data assignv callv setter is_none mbody.

Lemma assign_spec o i v o' ok : assign' o i v = (o', ok) ->
  (ok = true /\ cur (tr o') = Nat.min (cur (tr o)) (p_next (nth_prop c i))) \/
  (ok = false /\ tr o' = tr o).
Proof.
  unfold assign', assign. destruct (setter i v (dat o)) as [d []]; intros H; injection H as <- <-; auto.
Qed.

Lemma run_body_spec b : forall o es o' ok es', run' b o es = (o', ok, es') ->
  cur (tr o') <= cur (tr o) /\
  exists n, es' = es ++ n /\ forall e, In e n -> exists p, e = EAssigned p.
Proof.
  induction b as [i v k IH|d k IH| |]; intros o es o' ok es' H.
  - unfold run' in H. cbn [run_body] in H. fold assign' in H. fold run' in H.
    destruct (assign' o i v) as [o1 ok1] eqn:Ea.
    destruct (IH _ _ _ _ _ _ _ H) as [Hc (n & Hn & Hall)].
    destruct (assign_spec _ _ _ _ _ Ea) as [[-> Hc1]|[-> Ht]].
    + split; [lia|]. exists (EAssigned i :: n). split; [rewrite Hn, <- app_assoc; reflexivity|].
      intros e [<-|He]; [eauto|auto].
    + split; [rewrite <- Ht; exact Hc|]. exists n. auto.
  - unfold run' in H. cbn [run_body] in H. fold run' in H. destruct (IH _ _ _ _ _ H) as [Hc Hn]. auto.
  - cbn in H. injection H as <- <- <-. split; [lia|]. exists []. rewrite app_nil_r. split; [reflexivity|intros e []].
  - cbn in H. injection H as <- <- <-. split; [lia|]. exists []. rewrite app_nil_r. split; [reflexivity|intros e []].
Qed.

(** ** C50 *)
Lemma call_refused o m a : m < length (c_meths c) -> ~ ready c (tr o) m ->
  call' o m a = (o, [ERefused m]).
Proof.
  intros Hm Hr. rewrite ready_iff in Hr by exact Hm. unfold call', call.
  destruct (cur (tr o) <? m_min (nth_meth c m)) eqn:E; [reflexivity|].
  destruct (missing c (tr o) (m_min (nth_meth c m))) eqn:E2; [|reflexivity].
  destruct Hr. auto.
Qed.
Lemma call_ran o m a o' es : m < length (c_meths c) -> call' o m a = (o', es) ->
  es <> [ERefused m] ->
  ready c (tr o) m /\ exists nested, (forall e, In e nested -> exists p, e = EAssigned p) /\
    ((es = nested ++ [ECompleted m] /\ cur (tr o') = m_next (nth_meth c m)) \/
     (es = nested ++ [ERaised m] /\ cur (tr o') <= cur (tr o))).
Proof.
  intros Hm Hc Hne. rewrite ready_iff by exact Hm. unfold call', call in Hc.
  destruct (cur (tr o) <? m_min (nth_meth c m)) eqn:E; [injection Hc as <- <-; congruence|].
  destruct (missing c (tr o) (m_min (nth_meth c m))) eqn:E2; [|injection Hc as <- <-; congruence].
  split; [auto|]. fold run' in Hc.
  destruct (run' (mbody m a (dat o)) o []) as [[o1 ok] es1] eqn:Er.
  destruct (run_body_spec _ _ _ _ _ _ Er) as [Hcur (n & Hn & Hall)]. simpl in Hn. subst es1.
  exists n. split; [exact Hall|]. destruct ok; injection Hc as <- <-; auto.
Qed.

(** ** C51 *)
Lemma assign_back o i v o' ok : assign' o i v = (o', ok) ->
  cur (tr o') <= cur (tr o) /\ (ok = true -> cur (tr o') <= p_next (nth_prop c i)) /\
  (ok = false -> tr o' = tr o).
Proof.
  intros H. destruct (assign_spec _ _ _ _ _ H) as [[-> Hc]|[-> Ht]].
  - split; [lia|]. split; [lia|discriminate].
  - rewrite Ht. split; [lia|]. split; [discriminate|auto].
Qed.
Lemma step_forward o x o' es : step' o x = (o', es) -> cur (tr o) < cur (tr o') ->
  exists m a, x = OCall m a /\ In (ECompleted m) es /\ cur (tr o') = m_next (nth_meth c m).
Proof.
  intros H Hlt. destruct x as [i v|m a]; unfold step', step in H.
  - fold assign' in H. destruct (assign' o i v) as [o1 ok] eqn:E. injection H as <- <-.
    destruct (assign_back _ _ _ _ _ E) as [Hc _]. lia.
  - exists m, a. split; [reflexivity|]. unfold call in H.
    destruct (cur (tr o) <? m_min (nth_meth c m)); [injection H as <- <-; lia|].
    destruct (missing c (tr o) (m_min (nth_meth c m))); [|injection H as <- <-; lia].
    fold run' in H. destruct (run' (mbody m a (dat o)) o []) as [[o1 ok] es1] eqn:Er.
    destruct (run_body_spec _ _ _ _ _ _ Er) as [Hcur _].
    destruct ok; injection H as <- <-; [|lia]. split; [|reflexivity].
    apply in_or_app. right. left. reflexivity.
Qed.

Definition tinv (o : obj data) (es : list event) : Prop :=
  forall s, c_first c < s -> s <= cur (tr o) -> up_to_date c s es.

Lemma up_to_date_app s es l :
  up_to_date c s es -> (forall i, In (EAssigned i) l -> s <= p_next (nth_prop c i)) ->
  up_to_date c s (es ++ l).
Proof.
  intros (b & m & t & -> & Hm & Ht) Hl. exists b, m, (t ++ l).
  split; [now rewrite <- app_assoc|]. split; [exact Hm|].
  intros i Hi. apply in_app_or in Hi. destruct Hi; auto.
Qed.

Lemma assign_tinv o i v o' ok es : assign' o i v = (o', ok) -> tinv o es ->
  tinv o' (if ok then es ++ [EAssigned i] else es).
Proof.
  intros Ha Hi s Hs Hc. destruct (assign_spec _ _ _ _ _ Ha) as [[-> Hc1]|[-> Ht]].
  - apply up_to_date_app; [apply Hi; lia|]. intros j [E|[]]. injection E as <-. lia.
  - apply Hi; [exact Hs|]. rewrite <- Ht. exact Hc.
Qed.
Lemma run_tinv b : forall o es0 es o' ok es', run' b o es = (o', ok, es') ->
  tinv o (es0 ++ es) -> tinv o' (es0 ++ es').
Proof.
  induction b as [i v k IH|d k IH| |]; intros o es0 es o' ok es' H Hi.
  - unfold run' in H. cbn [run_body] in H. fold assign' in H. fold run' in H.
    destruct (assign' o i v) as [o1 ok1] eqn:Ea.
    apply (IH _ _ _ _ _ _ _ _ H). pose proof (assign_tinv _ _ _ _ _ _ Ea Hi) as H1.
    destruct ok1; [rewrite app_assoc; exact H1|exact H1].
  - unfold run' in H. cbn [run_body] in H. fold run' in H. apply (IH _ _ _ _ _ _ H). exact Hi.
  - cbn in H. injection H as <- <- <-. exact Hi.
  - cbn in H. injection H as <- <- <-. exact Hi.
Qed.
Lemma step_tinv o x o' es es0 : step' o x = (o', es) -> tinv o es0 -> tinv o' (es0 ++ es).
Proof.
  intros H Hi. destruct x as [i v|m a]; unfold step', step in H.
  - fold assign' in H. destruct (assign' o i v) as [o1 ok] eqn:E. injection H as <- <-.
    pose proof (assign_tinv _ _ _ _ _ _ E Hi) as H1. destruct ok; [exact H1|rewrite app_nil_r; exact H1].
  - unfold call in H.
    assert (Href : tinv o (es0 ++ [ERefused m])).
    { intros s Hs Hc. apply up_to_date_app; [now apply Hi|]. intros i [E|[]]. discriminate. }
    destruct (cur (tr o) <? m_min (nth_meth c m)); [injection H as <- <-; exact Href|].
    destruct (missing c (tr o) (m_min (nth_meth c m))); [|injection H as <- <-; exact Href].
    fold run' in H. destruct (run' (mbody m a (dat o)) o []) as [[o1 ok] es1] eqn:Er.
    assert (H1 : tinv o1 (es0 ++ es1)).
    { apply (run_tinv _ _ es0 _ _ _ _ Er). rewrite app_nil_r. exact Hi. }
    destruct ok; injection H as <- <-.
    + intros s Hs Hc. simpl in Hc. exists (es0 ++ es1), m, []. split; [now rewrite app_assoc|].
      split; [exact Hc|]. intros i [].
    + intros s Hs Hc. rewrite app_assoc. apply up_to_date_app; [now apply H1|].
      intros i [E|[]]. discriminate.
Qed.
Lemma history_tinv xs : forall o es0 o' es, hist' o xs = (o', es) -> tinv o es0 -> tinv o' (es0 ++ es).
Proof.
  induction xs as [|x xs IH]; intros o es0 o' es H Hi; unfold hist' in H; cbn [history] in H.
  - injection H as <- <-. rewrite app_nil_r. exact Hi.
  - fold step' in H. fold hist' in H. destruct (step' o x) as [o1 e1] eqn:Es.
    destruct (hist' o1 xs) as [o2 e2] eqn:Eh. injection H as <- <-.
    rewrite app_assoc. apply (IH _ _ _ _ Eh). now apply (step_tinv o x).
Qed.
Lemma history_up_to_date d xs o' es s :
  hist' (mkO (fresh c) d) xs = (o', es) -> c_first c < s -> s <= cur (tr o') -> up_to_date c s es.
Proof.
  intros H Hs Hc. apply (history_tinv xs _ [] _ _ H); [|exact Hs|exact Hc].
  intros s' Hs' Hc'. simpl in Hc'. lia.
Qed.
(** a step whose minimal state is not the first one runs only if its prerequisites are
    up to date *)
Lemma accepted_up_to_date d xs o es m a o' es' :
  hist' (mkO (fresh c) d) xs = (o, es) -> m < length (c_meths c) -> c_first c < m_min (nth_meth c m) ->
  call' o m a = (o', es') -> es' <> [ERefused m] -> up_to_date c (m_min (nth_meth c m)) es.
Proof.
  intros H Hm Hf Hcall Hne. destruct (call_ran _ _ _ _ _ Hm Hcall Hne) as [[Hr _] _].
  now apply (history_up_to_date d xs o es).
Qed.

Lemma advertised_runs o m a o' es :
  state_next c (tr o) = ([], Some m) -> call' o m a = (o', es) -> ~ In (ERefused m) es.
Proof.
  intros Hn Hc. apply next_ready in Hn. destruct Hn as [Hm Hr].
  rewrite ready_iff in Hr by exact Hm. destruct Hr as [H1 H2]. unfold call', call in Hc.
  rewrite H1, H2 in Hc. fold run' in Hc.
  destruct (run' (mbody m a (dat o)) o []) as [[o1 ok] es1] eqn:Er.
  destruct (run_body_spec _ _ _ _ _ _ Er) as [_ (n & Hn & Hall)]. simpl in Hn. subst es1.
  destruct ok; injection Hc as <- <-; intros Hin; apply in_app_or in Hin;
    (destruct Hin as [Hin|[Hin|[]]]; [destruct (Hall _ Hin); discriminate|discriminate]).
Qed.
End Instance.

(** * FlowStability *)
Ltac fs_cases := unfold fs_step, step, fs_assign in *.

Lemma fs_history_inv (I : fs_obj -> Prop) (ok : fs_op -> Prop) :
  (forall o x o' es, I o -> ok x -> fs_step o x = (o', es) -> I o') ->
  forall xs o o' es, I o -> Forall ok xs -> fs_history o xs = (o', es) -> I o'.
Proof.
  intros Hstep. induction xs as [|x xs IH]; intros o o' es Hi Hall H; unfold fs_history in H; cbn [history] in H.
  - injection H as <- <-. exact Hi.
  - fold fs_step in H. fold fs_history in H. inversion Hall; subst.
    destruct (fs_step o x) as [o1 e1] eqn:Es. destruct (fs_history o1 xs) as [o2 e2] eqn:Eh.
    injection H as <- <-. eapply IH; [|eassumption|exact Eh]. eapply Hstep; eauto.
Qed.
(** every event of a history satisfies [Q] if every step does under the invariant *)
Lemma fs_history_events (I : fs_obj -> Prop) (ok : fs_op -> Prop) (Q : event -> Prop) :
  (forall o x o' es, I o -> ok x -> fs_step o x = (o', es) -> I o' /\ forall e, In e es -> Q e) ->
  forall xs o o' es, I o -> Forall ok xs -> fs_history o xs = (o', es) -> forall e, In e es -> Q e.
Proof.
  intros Hstep. induction xs as [|x xs IH]; intros o o' es Hi Hall H e He; unfold fs_history in H; cbn [history] in H.
  - injection H as <- <-. destruct He.
  - fold fs_step in H. fold fs_history in H. inversion Hall; subst.
    destruct (fs_step o x) as [o1 e1] eqn:Es. destruct (fs_history o1 xs) as [o2 e2] eqn:Eh.
    injection H as <- <-. destruct (Hstep _ _ _ _ Hi H2 Es) as [H1 HQ]. apply in_app_or in He.
    destruct He as [He|He]; [auto|]. eapply IH; eauto.
Qed.

Lemma fs_assign_cur o i v o' ok : fs_assign o i v = (o', ok) ->
  cur (tr o') <= cur (tr o).
Proof. intros H. eapply assign_back. exact H. Qed.
Lemma fs_assign_pset o i v o' ok j : fs_assign o i v = (o', ok) -> j <> i ->
  pset (tr o') j = pset (tr o) j.
Proof.
  unfold fs_assign, assign. intros H Hj. destruct (fs_setter i v (dat o)) as [d []]; injection H as <- <-; simpl; [|reflexivity].
  destruct (Nat.eqb_spec j i); [contradiction|reflexivity].
Qed.
Lemma fs_assign_cur_exact o i v o' : fs_assign o i v = (o', true) ->
  cur (tr o') = Nat.min (cur (tr o)) (p_next (nth_prop fs_class i)).
Proof.
  unfold fs_assign, assign. intros H. destruct (fs_setter i v (dat o)) as [d []]; [|discriminate].
  injection H as <-. reflexivity.
Qed.
Lemma fs_assign_not_ok o i v o' : fs_assign o i v = (o', false) -> tr o' = tr o.
Proof.
  unfold fs_assign, assign. intros H. destruct (fs_setter i v (dat o)) as [d []]; [discriminate|].
  injection H as <-. reflexivity.
Qed.
(** a raising setter of FlowStability changes no data either *)
Lemma fs_setter_fail i v d d' : fs_setter i v d = (d', false) -> d' = d.
Proof.
  destruct i as [|[|[|[|[|[|i]]]]]]; destruct v; simpl; try congruence;
    repeat match goal with |- context[if ?b then _ else _] => destruct b end;
    try destruct kind as [[]|]; congruence.
Qed.

Ltac five m := destruct m as [|[|[|[|[|m]]]]]; [| | | | |lia].

Definition fs_run := run_body fs_class fsdata fsval fs_setter fs_is_none.

Lemma per_scale_run n : forall w o es, exists ok, fs_run (per_scale_work n w) o es = (o, ok, es).
Proof.
  induction n as [|n IH]; intros w o es; simpl; [eexists; reflexivity|].
  destruct (work_hd w); [apply IH|eexists; reflexivity|eexists; reflexivity].
Qed.

Lemma fs_call_refused_low o m a : m < 5 -> cur (tr o) < m_min (nth_meth fs_class m) ->
  fs_step o (OCall m a) = (o, [ERefused m]).
Proof.
  intros Hm Hc. unfold fs_step, step, call. apply Nat.ltb_lt in Hc. rewrite Hc. reflexivity.
Qed.
Lemma fs_call_refused_unset o m a i : m < 5 -> i < 7 ->
  p_next (nth_prop fs_class i) <= m_min (nth_meth fs_class m) -> pset (tr o) i = false ->
  fs_step o (OCall m a) = (o, [ERefused m]).
Proof.
  intros Hm Hi Hp Hs. apply (call_refused fs_class fsdata fsval fscall fs_setter fs_is_none fs_body); [exact Hm|].
  intros [_ Hr]. rewrite (Hr i Hi Hp) in Hs. discriminate.
Qed.

(** ** C57 *)
Definition I57 (o : fs_obj) : Prop := cur (tr o) = INITIAL.
Lemma C57_step o x o' es : I57 o -> fs_op_ok x /\ no_set_network x -> fs_step o x = (o', es) ->
  I57 o' /\ forall e, In e es -> forall m, e <> ECompleted m.
Proof.
  intros Hi [Hok Hx] H. unfold I57 in *. destruct x as [i v|m a].
  - unfold fs_step, step in H. fold fs_assign in H. destruct (fs_assign o i v) as [o1 ok] eqn:E.
    injection H as <- <-. apply fs_assign_cur in E. rewrite Hi in E. split; [unfold INITIAL in *; lia|].
    destruct ok; [intros e [<-|[]]; discriminate|intros e []].
  - simpl in Hok, Hx. assert (Hlow : cur (tr o) < m_min (nth_meth fs_class m)).
    { rewrite Hi. unfold M_net in Hx. five m; [congruence|..]; simpl; unfold INITIAL, TEMP_NW, LAPLAC, INTER_T, CLUSTERING; lia. }
    rewrite fs_call_refused_low in H by assumption. injection H as <- <-. split; [exact Hi|].
    intros e [<-|[]]. discriminate.
Qed.
Lemma fs_new_cur net ts start stop dir o : fs_new net ts start stop dir = Some o -> cur (tr o) = INITIAL.
Proof.
  unfold fs_new.
  assert (H : forall l o0 o1, cur (tr o0) = INITIAL -> fs_assign_all o0 l = Some o1 -> cur (tr o1) = INITIAL).
  { induction l as [|[i v] l IH]; intros o0 o1 H0 H; cbn [fs_assign_all] in H.
    - congruence.
    - destruct (fs_assign o0 i v) as [o2 ok] eqn:E. destruct ok; [|discriminate].
      apply (IH o2); [|exact H]. apply fs_assign_cur in E. unfold INITIAL in *. lia. }
  apply H. reflexivity.
Qed.
Lemma never_starts net ts start stop dir o xs o' es :
  fs_new net ts start stop dir = Some o ->
  Forall (fun x => fs_op_ok x /\ no_set_network x) xs -> fs_history o xs = (o', es) ->
  cur (tr o') = INITIAL /\ forall m, ~ In (ECompleted m) es.
Proof.
  intros Hn Hall H. apply fs_new_cur in Hn. split.
  - apply (fs_history_inv I57 (fun x => fs_op_ok x /\ no_set_network x)) with (2 := Hn) (4 := H); [|exact Hall].
    intros o0 x o1 e0 H0 H1 H2. eapply C57_step; eauto.
  - intros m Hin.
    apply (fs_history_events I57 (fun x => fs_op_ok x /\ no_set_network x) (fun e => forall m, e <> ECompleted m)
             C57_step xs o o' es Hn Hall H _ Hin m). reflexivity.
Qed.

(** ** C54 *)
Definition I54 (o : fs_obj) : Prop := cur (tr o) <= LAPLAC /\ pset (tr o) P_ts = false.
Lemma C54_step o x o' es : I54 o -> fs_op_ok x /\ no_time_scale x -> fs_step o x = (o', es) ->
  I54 o' /\ forall e, In e es -> e <> ECompleted M_inter.
Proof.
  intros [Hc Hp] [Hok Hx] H. unfold I54. destruct x as [i v|m a].
  - unfold fs_step, step in H. fold fs_assign in H. destruct (fs_assign o i v) as [o1 ok] eqn:E.
    injection H as <- <-. split.
    + split; [apply fs_assign_cur in E; lia|].
      destruct (Nat.eq_dec i P_ts) as [->|Hne].
      * simpl in Hx. rewrite (Hx eq_refl) in E. unfold fs_assign, assign in E. cbn in E.
        injection E as <- <-. reflexivity.
      * rewrite (fs_assign_pset _ _ _ _ _ P_ts E); [exact Hp|congruence].
    + destruct ok; [intros e [<-|[]]; discriminate|intros e []].
  - simpl in Hok.
    destruct (Nat.lt_ge_cases m 2) as [Hm|Hm].
    + unfold fs_step, step, call in H.
      destruct (cur (tr o) <? m_min (nth_meth fs_class m)).
      { injection H as <- <-. split; [auto|]. intros e [<-|[]]. discriminate. }
      destruct (missing fs_class (tr o) (m_min (nth_meth fs_class m))).
      2:{ injection H as <- <-. split; [auto|]. intros e [<-|[]]. discriminate. }
      destruct m as [|[|m]]; [| |lia].
      * cbn [fs_body] in H. destruct (a_kwargs a); [destruct (work_hd (a_work a))|]; cbn in H;
          injection H as <- <-; cbn; (split; [split; [unfold LAPLAC, TEMP_NW, INITIAL in *; lia|exact Hp]|]);
          intros e He; simpl in He; intuition (subst; discriminate).
      * cbn [fs_body] in H. destruct (f_net (dat o)); [destruct (work_hd (a_work a))|]; cbn in H;
          injection H as <- <-; cbn; (split; [split; [unfold LAPLAC, TEMP_NW, INITIAL in *; lia|exact Hp]|]);
          intros e He; simpl in He; intuition (subst; discriminate).
    + rewrite (fs_call_refused_unset o m a P_ts) in H.
      * injection H as <- <-. split; [auto|]. intros e [<-|[]]. discriminate.
      * exact Hok.
      * unfold P_ts. lia.
      * five m; cbn in *; unfold LAPLAC, INTER_T, CLUSTERING, TEMP_NW, INITIAL; lia.
      * exact Hp.
Qed.
Lemma default_scale_stuck net start stop dir o xs o' es :
  fs_new net VNone start stop dir = Some o ->
  Forall (fun x => fs_op_ok x /\ no_time_scale x) xs -> fs_history o xs = (o', es) ->
  cur (tr o') <= LAPLAC /\ ~ In (ECompleted M_inter) es.
Proof.
  intros Hn Hall H.
  assert (Hi : I54 o).
  { split; [rewrite (fs_new_cur _ _ _ _ _ _ Hn); unfold INITIAL, LAPLAC; lia|].
    unfold fs_new in Hn. cbn [fs_assign_all] in Hn.
    repeat match type of Hn with context[let '(_, _) := fs_assign ?a ?i ?v in _] =>
      let o := fresh "q" in let k := fresh "k" in let E := fresh "E" in
      destruct (fs_assign a i v) as [o k] eqn:E; destruct k; [|discriminate] end.
    injection Hn as <-.
    rewrite (fs_assign_pset _ _ _ _ _ P_ts E3) by discriminate.
    unfold fs_assign, assign in E2. cbn in E2. injection E2 as <-. reflexivity. }
  split.
  - assert (HI : I54 o'); [|apply HI].
    apply (fs_history_inv I54 (fun x => fs_op_ok x /\ no_time_scale x)) with (2 := Hi) (4 := H); [|exact Hall].
    intros o0 x o1 e0 H0 H1 H2. eapply C54_step; eauto.
  - intros Hin.
    apply (fs_history_events I54 (fun x => fs_op_ok x /\ no_time_scale x) (fun e => e <> ECompleted M_inter)
             C54_step xs o o' es Hi Hall H _ Hin). reflexivity.
Qed.

(** ** C53: the direction 1 / property backward and -1 / forward cases together *)
Definition one_way (z : Z) (q : nat) : Prop := (z = 1%Z /\ q = P_bwd) \/ (z = (-1)%Z /\ q = P_fwd).
Definition I53 (z : Z) (q : nat) (o : fs_obj) : Prop :=
  cur (tr o) <= CLUSTERING /\ pset (tr o) q = false /\ (pset (tr o) P_dir = true -> f_dir (dat o) = z).

Lemma fs_assign_dir o i v o' ok : fs_assign o i v = (o', ok) -> i <> P_dir -> f_dir (dat o') = f_dir (dat o).
Proof.
  unfold fs_assign, assign. intros H Hi.
  destruct (fs_setter i v (dat o)) as [d b] eqn:E.
  assert (Hd : f_dir d = f_dir (dat o)).
  { destruct i as [|[|[|[|[|[|i]]]]]]; unfold P_dir in Hi; try congruence; destruct v; simpl in E;
      repeat match type of E with context[if ?b then _ else _] => destruct b end;
      try (destruct kind as [[]|]); injection E as <- <-; reflexivity. }
  destruct b; injection H as <- <-; exact Hd.
Qed.

Lemma flow_scales_run z q l : one_way z q -> forall w o es o' ok es',
  f_dir (dat o) = z -> fs_run (flow_scales l w (dat o)) o es = (o', ok, es') ->
  cur (tr o') <= cur (tr o) /\ pset (tr o') q = pset (tr o) q /\
  pset (tr o') P_dir = pset (tr o) P_dir /\ f_dir (dat o') = z /\
  (forall e, In e es' -> In e es \/ exists p, e = EAssigned p).
Proof.
  intros Hz. induction l as [|ts l IH]; intros w o es o' ok es' Hd H.
  - cbn in H. injection H as <- <- <-. auto 6.
  - cbn [flow_scales] in H.
    assert (Hstop : forall o1 ok1 es1, (o, false, es) = (o1, ok1, es1) ->
      cur (tr o1) <= cur (tr o) /\ pset (tr o1) q = pset (tr o) q /\
      pset (tr o1) P_dir = pset (tr o) P_dir /\ f_dir (dat o1) = z /\
      (forall e, In e es1 -> In e es \/ exists p, e = EAssigned p)).
    { intros o1 ok1 es1 E. injection E as <- <- <-. auto 6. }
    destruct (work_hd w); [|apply (Hstop _ _ _ H)|apply (Hstop _ _ _ H)].
    assert (Hassign : forall p v w', p <> q -> p <> P_dir ->
      fs_run (BAssign p v (fun d' _ => flow_scales l w' d')) o es = (o', ok, es') ->
      cur (tr o') <= cur (tr o) /\ pset (tr o') q = pset (tr o) q /\
      pset (tr o') P_dir = pset (tr o) P_dir /\ f_dir (dat o') = z /\
      (forall e, In e es' -> In e es \/ exists p, e = EAssigned p)).
    { intros p v w' Hp1 Hp2 H1. unfold fs_run in H1. cbn [run_body] in H1. fold fs_assign in H1. fold fs_run in H1.
      destruct (fs_assign o p v) as [o1 k1] eqn:E.
      destruct (IH w' o1 _ _ _ _ (eq_trans (fs_assign_dir _ _ _ _ _ E Hp2) Hd) H1) as (A & B & C & D & F).
      split; [apply fs_assign_cur in E; lia|].
      split; [rewrite B; apply (fs_assign_pset _ _ _ _ _ _ E); congruence|].
      split; [rewrite C; apply (fs_assign_pset _ _ _ _ _ _ E); congruence|].
      split; [exact D|]. intros e He. apply F in He. destruct He as [He|He]; [|auto].
      destruct k1; [|auto]. apply in_app_or in He. destruct He as [He|[ <- | [] ]]; eauto. }
    destruct Hz as [[-> ->]|[-> ->]]; rewrite Hd in H; cbn in H.
    + destruct (work_hd (tl w)); [|apply (IH _ _ _ _ _ _ Hd H)|apply (Hstop _ _ _ H)].
      apply (Hassign P_fwd (VFlow ts (Some false)) (tl (tl w))); [discriminate|discriminate|exact H].
    + destruct (work_hd (tl w)); [| |apply (Hstop _ _ _ H)].
      * apply (Hassign P_bwd (VFlow ts (Some true)) (tl (tl w))); [discriminate|discriminate|].
        unfold fs_run in H |- *. cbn [run_body] in H |- *. fold fs_assign in H |- *. fold fs_run in H |- *.
        destruct (fs_assign o P_bwd (VFlow ts (Some true))) as [o1 k1] eqn:E.
        rewrite (fs_assign_dir _ _ _ _ _ E) in H by discriminate. rewrite Hd in H. cbn in H. exact H.
      * apply (IH _ _ _ _ _ _ Hd H).
Qed.

Lemma C53_step z q o x o' es : one_way z q -> I53 z q o -> fs_op_ok x /\ only_direction z q x ->
  fs_step o x = (o', es) -> I53 z q o' /\ forall e, In e es -> e <> ECompleted M_louvain.
Proof.
  intros Hz [Hc [Hq Hd]] [Hok Hx] H. unfold I53. destruct x as [i v|m a].
  - unfold fs_step, step in H. fold fs_assign in H. destruct (fs_assign o i v) as [o1 ok] eqn:E.
    injection H as <- <-. simpl in Hx. destruct Hx as [Hiq Hdir]. split.
    + split; [apply fs_assign_cur in E; lia|].
      split; [rewrite (fs_assign_pset _ _ _ _ _ q E); [exact Hq|congruence]|].
      destruct (Nat.eq_dec i P_dir) as [->|Hne].
      * destruct (Hdir eq_refl) as [-> | ->]; unfold fs_assign, assign in E; cbn in E.
        -- injection E as <- <-. cbn. discriminate.
        -- destruct Hz as [ [-> _] | [-> _] ]; cbn in E; injection E as <- <-; reflexivity.
      * rewrite (fs_assign_pset _ _ _ _ _ P_dir E), (fs_assign_dir _ _ _ _ _ E) by congruence. exact Hd.
    + destruct ok; [intros e [ <- | [] ]; discriminate|intros e []].
  - simpl in Hok. destruct (Nat.eq_dec m M_louvain) as [->|Hm].
    { rewrite (fs_call_refused_unset o M_louvain a q) in H.
      - injection H as <- <-. split; [auto|]. intros e [ <- | [] ]. discriminate.
      - exact Hok.
      - destruct Hz as [ [_ ->] | [_ ->] ]; unfold P_bwd, P_fwd; lia.
      - destruct Hz as [ [_ ->] | [_ ->] ]; cbn; lia.
      - exact Hq. }
    unfold fs_step, step, call in H.
    destruct (cur (tr o) <? m_min (nth_meth fs_class m)).
    { injection H as <- <-. split; [auto|]. intros e [ <- | [] ]. discriminate. }
    destruct (missing fs_class (tr o) (m_min (nth_meth fs_class m))) eqn:Emiss.
    2:{ injection H as <- <-. split; [auto|]. intros e [ <- | [] ]. discriminate. }
    fold fs_run in H. unfold M_louvain in Hm.
    assert (Hqn : q <> P_net /\ q <> P_ts) by (destruct Hz as [ [_ ->] | [_ ->] ]; split; discriminate).
    assert (Hfin : forall b o1 ok es1, fs_run b o [] = (o1, ok, es1) ->
      (cur (tr o1) <= cur (tr o) /\ pset (tr o1) q = pset (tr o) q /\
       (pset (tr o1) P_dir = true -> f_dir (dat o1) = z)) ->
      (if ok then (mkO (mkT (m_next (nth_meth fs_class m)) (pset (tr o1))) (dat o1), es1 ++ [ECompleted m])
       else (o1, es1 ++ [ERaised m])) = (o', es) ->
      (cur (tr o') <= CLUSTERING /\ pset (tr o') q = false /\ (pset (tr o') P_dir = true -> f_dir (dat o') = z)) /\
      forall e, In e es -> e <> ECompleted 4).
    { intros b o1 ok es1 Hr (A & B & C) E.
      destruct (run_body_spec _ _ _ _ _ _ _ _ _ _ _ Hr) as [_ (n & Hn & Hall)]. simpl in Hn. subst es1.
      assert (Hev : forall e, In e n -> e <> ECompleted 4).
      { intros e He. destruct (Hall e He) as [p ->]. discriminate. }
      destruct ok; injection E as <- <-; cbn [tr dat cur pset].
      - split; [split; [|split; [congruence|exact C]]|].
        + five m; try congruence; cbn; unfold CLUSTERING, TEMP_NW, LAPLAC, INTER_T; lia.
        + intros e He. apply in_app_or in He. destruct He as [He|[ <- | [] ]]; [auto|congruence].
      - split; [split; [lia|split; [congruence|exact C]]|].
        intros e He. apply in_app_or in He. destruct He as [He|[ <- | [] ]]; [auto|discriminate]. }
    assert (Hasg : forall p v k, p <> q -> p <> P_dir ->
      (forall d ok, exists ok', forall o1 es1, fs_run (k d ok) o1 es1 = (o1, ok', es1)) ->
      forall o1 ok es1, fs_run (BAssign p v k) o [] = (o1, ok, es1) ->
      cur (tr o1) <= cur (tr o) /\ pset (tr o1) q = pset (tr o) q /\
      (pset (tr o1) P_dir = true -> f_dir (dat o1) = z)).
    { intros p v k Hp1 Hp2 Hk o1 ok es1 Hr. unfold fs_run in Hr. cbn [run_body] in Hr.
      fold fs_assign in Hr. fold fs_run in Hr. destruct (fs_assign o p v) as [o2 k2] eqn:E.
      destruct (Hk (dat o2) k2) as [ok' Hk']. rewrite Hk' in Hr. injection Hr as <- <- <-.
      split; [eapply fs_assign_cur; exact E|]. split; [apply (fs_assign_pset _ _ _ _ _ _ E); congruence|].
      rewrite (fs_assign_pset _ _ _ _ _ P_dir E), (fs_assign_dir _ _ _ _ _ E) by congruence. exact Hd. }
    destruct (fs_run (fs_body m a (dat o)) o []) as [[o1 ok] es1] eqn:Er.
    apply (Hfin _ _ _ _ Er); [|exact H]. clear H Hfin.
    assert (Hsame : forall ok0, (o, ok0, @nil event) = (o1, ok, es1) ->
      cur (tr o1) <= cur (tr o) /\ pset (tr o1) q = pset (tr o) q /\
      (pset (tr o1) P_dir = true -> f_dir (dat o1) = z)).
    { intros ok0 E. injection E as <- <- <-. auto. }
    five m; cbn [fs_body] in Er; [| | | |congruence].
    + destruct (a_kwargs a); [destruct (work_hd (a_work a))|].
      * apply (Hasg P_net VNet (fun _ _ => BReturn)) with (4 := Er); [intuition|discriminate|].
        intros. exists true. reflexivity.
      * apply (Hsame false). exact Er.
      * apply (Hsame false). exact Er.
      * apply (Hasg P_net VNone (fun _ _ => BReturn)) with (4 := Er); [intuition|discriminate|].
        intros. exists true. reflexivity.
    + destruct (f_net (dat o)); [destruct (work_hd (a_work a))|]; eapply Hsame; exact Er.
    + assert (Hps : forall n w o2 es2, exists ok', fs_run (per_scale_work n w) o2 es2 = (o2, ok', es2))
        by (intros; apply per_scale_run).
      destruct (f_net (dat o)); [|eapply Hsame; exact Er].
      assert (Hper : forall n w, fs_run (per_scale_work n w) o [] = (o1, ok, es1) ->
         cur (tr o1) <= cur (tr o) /\ pset (tr o1) q = pset (tr o) q /\
         (pset (tr o1) P_dir = true -> f_dir (dat o1) = z)).
      { intros n w E. destruct (Hps n w o []) as [ok' E']. rewrite E' in E. eapply Hsame; exact E. }
      assert (Hdet : forall d (okb : bool), exists ok', forall o2 es2,
         fs_run (if okb then per_scale_work (length (f_ts d)) (a_work a) else BRaise) o2 es2 = (o2, ok', es2)).
      { intros d [|]; [|exists false; reflexivity]. generalize (length (f_ts d)) (a_work a).
        induction n as [|n IHn]; intros w; [exists true; reflexivity|]. cbn.
        destruct (work_hd w); [apply IHn|exists false; reflexivity|exists false; reflexivity]. }
      destruct (a_ts a) as [v|].
      * destruct v; try (apply (Hper _ _ Er)); eapply Hasg with (4 := Er); try exact Hdet; try discriminate; intuition.
      * destruct (a_lamda a); [eapply Hsame; exact Er|apply (Hper _ _ Er)].
    + assert (Hset : pset (tr o) P_dir = true).
      { apply (proj1 (missing_nil fs_class (tr o) INTER_T eq_refl) Emiss P_dir); cbn; unfold P_dir, INTER_T; lia. }
      destruct (f_net (dat o)).
      2:{ destruct (f_ts (dat o)); eapply Hsame; exact Er. }
      destruct (flow_scales_run z q _ Hz _ _ _ _ _ _ (Hd Hset) Er) as (A & B & C & D & _).
      auto.
Qed.
Lemma single_direction_stuck z q net ts start stop dir o xs o' es :
  one_way z q -> dir = VNone \/ dir = VDir z ->
  fs_new net ts start stop dir = Some o ->
  Forall (fun x => fs_op_ok x /\ only_direction z q x) xs -> fs_history o xs = (o', es) ->
  cur (tr o') < FINAL /\ ~ In (ECompleted M_louvain) es.
Proof.
  intros Hz Hdir Hn Hall H.
  assert (Hi : I53 z q o).
  { split; [rewrite (fs_new_cur _ _ _ _ _ _ Hn); unfold INITIAL, CLUSTERING; lia|].
    unfold fs_new in Hn. cbn [fs_assign_all] in Hn.
    repeat match type of Hn with context[let '(_, _) := fs_assign ?a ?i ?v in _] =>
      let o := fresh "q" in let k := fresh "k" in let E := fresh "E" in
      destruct (fs_assign a i v) as [o k] eqn:E; destruct k; [|discriminate] end.
    injection Hn as <-.
    assert (Hq : q <> P_net /\ q <> P_start /\ q <> P_stop /\ q <> P_ts /\ q <> P_dir)
      by (destruct Hz as [ [_ ->] | [_ ->] ]; repeat split; discriminate).
    split.
    - rewrite (fs_assign_pset _ _ _ _ _ q E3), (fs_assign_pset _ _ _ _ _ q E2),
        (fs_assign_pset _ _ _ _ _ q E1), (fs_assign_pset _ _ _ _ _ q E0), (fs_assign_pset _ _ _ _ _ q E)
        by tauto. reflexivity.
    - destruct Hdir as [-> | ->]; unfold fs_assign, assign in E3; cbn in E3.
      + injection E3 as <-. cbn. discriminate.
      + destruct Hz as [ [-> _] | [-> _] ]; cbn in E3; injection E3 as <-; reflexivity. }
  split.
  - assert (HI : I53 z q o'); [|destruct HI; unfold CLUSTERING, FINAL in *; lia].
    apply (fs_history_inv (I53 z q) (fun x => fs_op_ok x /\ only_direction z q x)) with (2 := Hi) (4 := H); [|exact Hall].
    intros o0 x o1 e0 H0 H1 H2. eapply C53_step; eauto.
  - intros Hin.
    apply (fs_history_events (I53 z q) (fun x => fs_op_ok x /\ only_direction z q x) (fun e => e <> ECompleted M_louvain)
             (fun o x o' es => C53_step z q o x o' es Hz) xs o o' es Hi Hall H _ Hin). reflexivity.
Qed.

(** ** the documented sequence of steps *)
Lemma oeq_refl a : oeq a a = true.
Proof. destruct a; simpl; [|reflexivity]. destruct (qeqb_spec q q); congruence. Qed.
Lemma per_scale_ok n : forall o es, fs_run (per_scale_work n []) o es = (o, true, es).
Proof. induction n as [|n IH]; intros o es; simpl; [reflexivity|apply IH]. Qed.

Definition has_flows (z : Z) (d : fsdata) (ts : option num) : Prop :=
  ((z <= 0)%Z -> dlook (f_bwd d) ts = Some true) /\ ((0 <= z)%Z -> dlook (f_fwd d) ts = Some true).
Definition flow_marks (z : Z) (t t' : track) : Prop :=
  forall i, pset t' i = pset t i || ((i =? P_bwd) && (z <=? 0)%Z) || ((i =? P_fwd) && (0 <=? z)%Z).

Lemma flow_scales_ok z l : (z = -1 \/ z = 0 \/ z = 1)%Z -> forall o es,
  f_dir (dat o) = z -> CLUSTERING <= cur (tr o) \/ cur (tr o) = INTER_T ->
  exists o' es', fs_run (flow_scales l [] (dat o)) o es = (o', true, es') /\
    cur (tr o') <= cur (tr o) /\ f_ts (dat o') = f_ts (dat o) /\ f_dir (dat o') = z /\
    (l <> [] -> flow_marks z (tr o) (tr o')) /\
    (l = [] -> o' = o) /\
    (forall ts, In ts l -> has_flows z (dat o') ts) /\
    (forall ts, has_flows z (dat o) ts -> has_flows z (dat o') ts).
Proof.
  intros Hz. induction l as [|ts l IH]; intros o es Hd Hc.
  - exists o, es. split; [reflexivity|]. split; [lia|]. split; [reflexivity|]. split; [exact Hd|].
    split; [congruence|]. split; [reflexivity|]. split; [intros ts []|auto].
  - assert (Hex : exists o1 es1, fs_run (flow_scales (ts :: l) [] (dat o)) o es =
        fs_run (flow_scales l [] (dat o1)) o1 es1 /\
        cur (tr o1) <= cur (tr o) /\ (CLUSTERING <= cur (tr o1) \/ cur (tr o1) = INTER_T) /\
        f_ts (dat o1) = f_ts (dat o) /\ f_dir (dat o1) = z /\ flow_marks z (tr o) (tr o1) /\
        has_flows z (dat o1) ts /\ (forall ts', has_flows z (dat o) ts' -> has_flows z (dat o1) ts')).
    { destruct o as [[k ps] [net sc dir fw bw]]. simpl in Hd, Hc. subst dir.
      destruct Hz as [-> | [-> | ->]]; eexists (mkO _ _), _; split; try (cbn; reflexivity);
      cbn [tr dat cur pset f_ts f_dir];
      (split; [cbn; unfold CLUSTERING, INTER_T in *; lia|]);
      (split; [cbn; unfold CLUSTERING, INTER_T in *; lia|]);
      (split; [reflexivity|]); (split; [reflexivity|]);
      (split; [intros i; cbn; unfold P_bwd, P_fwd;
               destruct (Nat.eqb_spec i 6); subst; cbn; rewrite ?orb_true_r, ?orb_false_r; try reflexivity;
               destruct (Nat.eqb_spec i 5); subst; cbn; rewrite ?orb_true_r, ?orb_false_r; reflexivity|]);
      (split; [split; intros; cbn; rewrite ?oeq_refl; try reflexivity; lia|]);
      intros ts' [H1 H2]; split; intros Hs; cbn in *; try lia;
      match goal with |- context[oeq ?a ?b] => destruct (oeq a b); auto end. }
    destruct Hex as (o1 & es1 & E & Hc1 & Hc1' & Hts & Hdir & Hm & Hf & Hk).
    destruct (IH o1 es1 Hdir Hc1') as (o' & es' & E' & A & B & C & D & D' & F & G).
    exists o', es'. split; [rewrite E; exact E'|]. split; [lia|]. split; [congruence|]. split; [exact C|].
    split; [|split; [discriminate|split]].
    + intros _. destruct l as [|ts2 l2].
      * rewrite (D' eq_refl). exact Hm.
      * specialize (D ltac:(discriminate)). intros i. rewrite (D i), (Hm i).
        destruct (pset (tr o) i), ((i =? P_bwd) && (z <=? 0)%Z), ((i =? P_fwd) && (0 <=? z)%Z); reflexivity.
    + intros ts' [<-|Hin]; [apply G; exact Hf|auto].
    + intros ts' H. apply G, Hk, H.
Qed.
Lemma louvain_scales_ok z d l : f_dir d = z -> (forall ts, In ts l -> has_flows z d ts) ->
  forall o es, fs_run (louvain_scales l [] d) o es = (o, true, es).
Proof.
  intros Hz. induction l as [|ts l IH]; intros H o es; [reflexivity|].
  destruct (H ts (or_introl eq_refl)) as [H1 H2]. cbn [louvain_scales]. rewrite Hz.
  assert (IH' := IH (fun t Ht => H t (or_intror Ht)) o es).
  destruct (Z.leb_spec z 0) as [Hle|Hle].
  - rewrite (H1 Hle). cbn [work_hd]. destruct (Z.leb_spec 0 z) as [Hge|Hge].
    + rewrite (H2 Hge). cbn. exact IH'.
    + exact IH'.
  - destruct (Z.leb_spec 0 z) as [Hge|Hge]; [|lia]. rewrite (H2 Hge). cbn. exact IH'.
Qed.

Definition plain : fscall := mkFC true None false [].
(** what has to be assigned by hand for a single direction *)
Definition dummy (z : Z) : list fs_op :=
  if (z =? 1)%Z then [OAssign P_bwd (VFlow None None)]
  else if (z =? -1)%Z then [OAssign P_fwd (VFlow None None)] else [].


Lemma call_done o m a o1 es1 : m < 5 -> ready fs_class (tr o) m ->
  fs_run (fs_body m a (dat o)) o [] = (o1, true, es1) ->
  fs_step o (OCall m a) =
  (mkO (mkT (m_next (nth_meth fs_class m)) (pset (tr o1))) (dat o1), es1 ++ [ECompleted m]).
Proof.
  intros Hm Hr E. apply ready_iff in Hr; [|exact Hm]. destruct Hr as [H1 H2].
  unfold fs_step, step, call. rewrite H1, H2. fold fs_run. rewrite E. reflexivity.
Qed.
Lemma fs_history_cons o x xs o1 e1 o2 e2 : fs_step o x = (o1, e1) -> fs_history o1 xs = (o2, e2) ->
  fs_history o (x :: xs) = (o2, e1 ++ e2).
Proof.
  intros H1 H2. unfold fs_history in *. cbn [history]. fold fs_step. rewrite H1, H2. reflexivity.
Qed.
Lemma fs_history_app xs ys : forall o o1 e1 o2 e2,
  fs_history o xs = (o1, e1) -> fs_history o1 ys = (o2, e2) -> fs_history o (xs ++ ys) = (o2, e1 ++ e2).
Proof.
  induction xs as [|x xs IH]; intros o o1 e1 o2 e2 H1 H2.
  - cbn in H1. injection H1 as <- <-. exact H2.
  - unfold fs_history in H1. cbn [history] in H1. fold fs_step in H1. fold fs_history in H1.
    destruct (fs_step o x) as [o3 e3] eqn:E3. destruct (fs_history o3 xs) as [o4 e4] eqn:E4.
    injection H1 as <- <-. rewrite <- app_assoc. simpl.
    eapply fs_history_cons; [exact E3|]. eapply IH; [exact E4|exact H2].
Qed.

Ltac seven i Hp := destruct i as [|[|[|[|[|[|[|i]]]]]]]; cbn in *; rewrite ?Hp; auto; try lia.

Lemma sequence_completes z l : (z = -1 \/ z = 0 \/ z = 1)%Z -> l <> [] ->
  Forall (fun x => match x with None => True | Some t => (0 < t)%num end) l ->
  exists o o' es, fs_new VNone (VScales l) VNone VNone (VDir z) = Some o /\
    fs_history o ([OCall M_net plain; OCall M_lap plain; OCall M_inter plain; OCall M_flow plain]
                    ++ dummy z ++ [OCall M_louvain plain]) = (o', es) /\
    cur (tr o') = FINAL.
Proof.
  intros Hz Hl Hpos.
  assert (Hb : forallb (fun x => match x with None => true | Some t => qltb 0%num t end) l = true).
  { apply forallb_forall. intros x Hx. rewrite Forall_forall in Hpos. specialize (Hpos x Hx).
    destruct x as [x|]; [|reflexivity]. destruct (qltb_spec 0%num x); [reflexivity|contradiction]. }
  assert (Hn : exists ps, fs_new VNone (VScales l) VNone VNone (VDir z) =
      Some (mkO (mkT INITIAL ps) (mkF false l z [] [])) /\
      (forall i, ps i = match i with 1 | 2 | 3 | 4 => true | _ => false end)).
  { unfold fs_new. cbn [fs_assign_all]. unfold fs_assign, assign. cbn [fs_setter dat fs_empty fst snd].
    cbn. rewrite Hb. destruct Hz as [-> | [-> | ->]]; cbn;
    (eexists; split; [reflexivity|]); intros [|[|[|[|[|[|[|i]]]]]]]; reflexivity. }
  destruct Hn as (ps & Hn & Hp).
  set (o0 := mkO (mkT INITIAL ps) (mkF false l z [] [])) in *.
  set (ps1 := fun j => if Nat.eqb j 0 then true else ps j).
  set (d1 := mkF true l z [] []).
  assert (Hp1 : forall i, ps1 i = match i with 0 | 1 | 2 | 3 | 4 => true | _ => false end).
  { intros [|i]; [reflexivity|]. unfold ps1. cbn [Nat.eqb]. rewrite Hp. destruct i as [|[|[|[|i]]]]; reflexivity. }
  assert (S1 : fs_step o0 (OCall M_net plain) = (mkO (mkT TEMP_NW ps1) d1, [EAssigned P_net; ECompleted M_net])).
  { rewrite (call_done o0 M_net plain (mkO (mkT INITIAL ps1) d1) [EAssigned P_net]); [reflexivity|unfold M_net; lia| |reflexivity].
    split; [cbn; lia|]. intros i Hi Hle. cbn in Hi. seven i Hp; unfold INITIAL, TEMP_NW, LAPLAC, INTER_T, CLUSTERING in *; lia. }
  assert (S2 : fs_step (mkO (mkT TEMP_NW ps1) d1) (OCall M_lap plain) = (mkO (mkT LAPLAC ps1) d1, [ECompleted M_lap])).
  { rewrite (call_done _ M_lap plain (mkO (mkT TEMP_NW ps1) d1) []); [reflexivity|unfold M_lap; lia| |reflexivity].
    split; [cbn; lia|]. intros i Hi Hle. cbn in Hi. cbn [pset tr]. rewrite Hp1.
    destruct i as [|[|[|[|[|[|[|i]]]]]]]; cbn in *; auto; unfold INITIAL, TEMP_NW, LAPLAC, INTER_T, CLUSTERING in *; lia. }
  assert (S3 : fs_step (mkO (mkT LAPLAC ps1) d1) (OCall M_inter plain) = (mkO (mkT INTER_T ps1) d1, [ECompleted M_inter])).
  { rewrite (call_done _ M_inter plain (mkO (mkT LAPLAC ps1) d1) []); [reflexivity|unfold M_inter; lia| |].
    - split; [cbn; lia|]. intros i Hi Hle. cbn in Hi. cbn [pset tr]. rewrite Hp1.
      destruct i as [|[|[|[|[|[|[|i]]]]]]]; cbn in *; auto; unfold INITIAL, TEMP_NW, LAPLAC, INTER_T, CLUSTERING in *; lia.
    - cbn [M_inter fs_body]. apply per_scale_ok. }
  set (o3 := mkO (mkT INTER_T ps1) d1) in *.
  destruct (flow_scales_ok z l Hz o3 [] eq_refl (or_intror eq_refl))
    as (o4 & es4 & E4 & Hc4 & Hts & Hdir & Hm & _ & Hf & _).
  specialize (Hm Hl).
  assert (S4 : fs_step o3 (OCall M_flow plain) = (mkO (mkT CLUSTERING (pset (tr o4))) (dat o4), es4 ++ [ECompleted M_flow])).
  { rewrite (call_done _ M_flow plain o4 es4); [reflexivity|unfold M_flow; lia| |exact E4].
    split; [cbn; lia|]. intros i Hi Hle. cbn in Hi. unfold o3. cbn [pset tr]. rewrite Hp1.
    destruct i as [|[|[|[|[|[|[|i]]]]]]]; cbn in *; auto; unfold INITIAL, TEMP_NW, LAPLAC, INTER_T, CLUSTERING in *; lia. }
  assert (S5 : exists ps5 d5 e5, fs_history (mkO (mkT CLUSTERING (pset (tr o4))) (dat o4)) (dummy z)
       = (mkO (mkT CLUSTERING ps5) d5, e5) /\ (forall i, i < 7 -> ps5 i = true) /\ f_dir d5 = z /\
       f_ts d5 = l /\ forall ts, In ts l -> has_flows z d5 ts).
  { destruct o4 as [[c4 ps4] [nt4 ts4 dr4 fw4 bw4]]. cbn in Hts, Hdir, Hm. subst ts4 dr4.
    unfold flow_marks in Hm. cbn in Hm. setoid_rewrite Hp1 in Hm. unfold P_bwd, P_fwd in Hm.
    destruct Hz as [-> | [-> | ->]]; cbn; eexists _, _, _; (split; [reflexivity|]);
      (split; [intros i Hi; destruct i as [|[|[|[|[|[|[|i]]]]]]]; cbn; try rewrite Hm; cbn; try reflexivity; lia|]);
      (split; [reflexivity|]); (split; [reflexivity|]); intros ts Hin; destruct (Hf ts Hin) as [F1 F2];
      split; intros Hs; cbn in *; auto; lia. }
  destruct S5 as (ps5 & d5 & e5 & E5 & Hp5 & Hd5 & Ht5 & Hf5).
  set (o5 := mkO (mkT CLUSTERING ps5) d5) in *.
  assert (S6 : fs_step o5 (OCall M_louvain plain) = (mkO (mkT FINAL ps5) d5, [ECompleted M_louvain])).
  { rewrite (call_done _ M_louvain plain o5 []); [reflexivity|unfold M_louvain; lia| |].
    - split; [cbn; lia|]. intros i Hi _. apply Hp5. exact Hi.
    - cbn [M_louvain fs_body]. unfold o5. cbn [dat]. rewrite Ht5. apply (louvain_scales_ok z); [exact Hd5|exact Hf5]. }
  exists o0. eexists _, _. split; [exact Hn|]. split.
  - simpl app. eapply fs_history_cons; [exact S1|]. eapply fs_history_cons; [exact S2|].
    eapply fs_history_cons; [exact S3|]. eapply fs_history_cons; [exact S4|].
    eapply fs_history_app; [exact E5|]. eapply fs_history_cons; [exact S6|]. reflexivity.
  - reflexivity.
Qed.

(** ** C57, what does work *)
Lemma assigned_network_analysable ts start stop dir o a b :
  fs_new VNone ts start stop dir = Some o -> a_kwargs a = false -> work_hd (a_work b) = WOk ->
  exists o' es, fs_history o [OCall M_net a; OAssign P_net VNet; OCall M_lap b] = (o', es) /\
    cur (tr o') = LAPLAC /\ In (ECompleted M_lap) es.
Proof.
  intros Hn Ha Hb.
  assert (Hc := fs_new_cur _ _ _ _ _ _ Hn).
  assert (Hs : pset (tr o) P_start = true /\ pset (tr o) P_stop = true).
  { unfold fs_new in Hn. cbn [fs_assign_all] in Hn.
    repeat match type of Hn with context[let '(_, _) := fs_assign ?a ?i ?v in _] =>
      let o := fresh "q" in let k := fresh "k" in let E := fresh "E" in
      destruct (fs_assign a i v) as [o k] eqn:E; destruct k; [|discriminate] end.
    injection Hn as <-.
    rewrite (fs_assign_pset _ _ _ _ _ P_start E3), (fs_assign_pset _ _ _ _ _ P_start E2),
      (fs_assign_pset _ _ _ _ _ P_start E1), (fs_assign_pset _ _ _ _ _ P_stop E3),
      (fs_assign_pset _ _ _ _ _ P_stop E2) by discriminate.
    unfold fs_assign, assign in E0, E1. cbn in E0, E1. injection E0 as <-. injection E1 as <-. cbn.
    rewrite !andb_false_r. split; reflexivity. }
  destruct o as [[k ps] d]. cbn in Hc, Hs. subst k. destruct Hs as [Hs1 Hs2].
  unfold P_start, P_stop in *.
  eexists _, _. split; [|split].
  - eapply fs_history_cons.
    { apply (call_done _ M_net a); [unfold M_net; lia| |].
      - split; [cbn; unfold INITIAL, TEMP_NW in *; lia|]. intros i Hi Hle. cbn in Hi.
        destruct i as [|[|[|[|[|[|[|i]]]]]]]; cbn in Hle; unfold INITIAL, TEMP_NW, LAPLAC, INTER_T, CLUSTERING in *; lia.
      - cbn [M_net fs_body]. rewrite Ha. reflexivity. }
    eapply fs_history_cons; [reflexivity|].
    eapply fs_history_cons.
    { apply (call_done _ M_lap b); [unfold M_lap; lia| |].
      - split; [cbn; unfold INITIAL, TEMP_NW in *; lia|]. intros i Hi Hle. cbn in Hi.
        destruct i as [|[|[|[|[|[|[|i]]]]]]]; cbn in *; auto; unfold INITIAL, TEMP_NW, LAPLAC, INTER_T, CLUSTERING in *; lia.
      - cbn [M_lap fs_body]. cbn. rewrite Hb. reflexivity. }
    reflexivity.
  - reflexivity.
  - cbn. auto 6.
Qed.
