(** Lemmas on the grid of flow integrals, and on rounding. *)
From Verif Require Import Base LouvainModel SparseModel EventsModel EventsSpec TransModel TransSpec MatProofs FlowModel FlowSpec FlowProofs.

(** ** Products *)
Lemma T_from_length n kd l : forall T, length (T_from n kd T l) = length l.
Proof. induction l as [|A l IH]; intros T; cbn; [reflexivity|now rewrite IH]. Qed.
Lemma next_T_mmul n kd T A : stochastic n T -> stochastic n A -> eqm n (next_T n kd T A) (mmul n T A).
Proof. intros HT HA. destruct kd; [apply eqm_refl|]. apply rownorm_stochastic. now apply stochastic_mmul. Qed.
Lemma T_from_chain n kd l : forall T, stochastic n T -> (forall A, In A l -> stochastic n A) ->
  forall k, k < length l -> eqm n (nth k (T_from n kd T l) ident) (mmul n T (chain n (firstn (S k) l))).
Proof.
  induction l as [|A l IH]; intros T HT Hl k Hk; cbn [length] in Hk; [lia|].
  assert (HA : stochastic n A) by (apply Hl; now left). assert (EN := next_T_mmul n kd T A HT HA).
  assert (HN : stochastic n (next_T n kd T A)). { apply (stochastic_ext n (mmul n T A)); [now apply eqm_sym|now apply stochastic_mmul]. }
  destruct k as [|k].
  - change (eqm n (next_T n kd T A) (mmul n T (mmul n A ident))). eapply eqm_trans; [exact EN|]. apply mmul_ext; [apply eqm_refl|]. apply eqm_sym, mmul_ident_r.
  - change (eqm n (nth k (T_from n kd (next_T n kd T A) l) ident) (mmul n T (mmul n A (chain n (firstn (S k) l))))).
    eapply eqm_trans; [apply IH; [exact HN|intros B HB; apply Hl; now right|lia]|].
    eapply eqm_trans; [apply mmul_ext; [exact EN|apply eqm_refl]|]. apply mmul_assoc.
Qed.
Lemma T_list_transition n kd l Ts : (forall A, In A l -> stochastic n A) -> compute_T_list n kd l = Some Ts ->
  length Ts = length l /\ forall k, k < length l -> eqm n (nth k Ts ident) (transition n l k) /\ stochastic n (nth k Ts ident).
Proof.
  intros Hl E. destruct l as [|A l]; [discriminate|]. cbn [compute_T_list] in E. injection E as <-. cbn [length]. rewrite T_from_length. split; [reflexivity|].
  intros k Hk. assert (HE : eqm n (nth k (A :: T_from n kd A l) ident) (transition n (A :: l) k)).
  { destruct k as [|k]; [apply eqm_sym, mmul_ident_r|]. unfold transition. change (chain n (firstn (S (S k)) (A :: l))) with (mmul n A (chain n (firstn (S k) l))).
    cbn [nth]. apply T_from_chain; [apply Hl; now left|intros B HB; apply Hl; now right|lia]. }
  split; [exact HE|]. eapply stochastic_ext; [apply eqm_sym, HE|]. apply stochastic_chain. intros B HB. apply Hl.
  rewrite <- (firstn_skipn (S k) (A :: l)). apply in_or_app. now left.
Qed.

(** ** Snapping to the times *)
Lemma fold_qmax_ge l : forall m, (m <= fold_left qmax l m)%num /\ (forall x, In x l -> (x <= fold_left qmax l m)%num) /\ (fold_left qmax l m = m \/ In (fold_left qmax l m) l).
Proof.
  induction l as [|a l IH]; intros m; cbn [fold_left]; [split; [apply Qcle_refl|split; [intros x []|now left]]|].
  destruct (IH (qmax m a)) as (H1 & H2 & H3). assert (Hm : (m <= qmax m a /\ a <= qmax m a)%num /\ (qmax m a = m \/ qmax m a = a)).
  { unfold qmax. destruct (qleb_spec m a) as [H|H]; [split; [split; [exact H|apply Qcle_refl]|now right]|split; [split; [apply Qcle_refl|]|now left]]. apply Qclt_le_weak. now apply Qcnot_le_lt. }
  destruct Hm as [[Hm Ha] Hc]. split; [eapply Qcle_trans; eassumption|]. split.
  - intros x [<-|Hx]; [eapply Qcle_trans; eassumption|now apply H2].
  - destruct H3 as [H3|H3]; [|right; now right]. destruct Hc as [Hc|Hc]; [left; congruence|right; left; congruence].
Qed.
Lemma fold_qmin_le l : forall m, (fold_left qmin l m <= m)%num /\ (forall x, In x l -> (fold_left qmin l m <= x)%num) /\ (fold_left qmin l m = m \/ In (fold_left qmin l m) l).
Proof.
  induction l as [|a l IH]; intros m; cbn [fold_left]; [split; [apply Qcle_refl|split; [intros x []|now left]]|].
  destruct (IH (qmin m a)) as (H1 & H2 & H3). assert (Hm : (qmin m a <= m /\ qmin m a <= a)%num /\ (qmin m a = m \/ qmin m a = a)).
  { unfold qmin. destruct (qleb_spec m a) as [H|H]; [split; [split; [apply Qcle_refl|exact H]|now left]|split; [split; [|apply Qcle_refl]|now right]]. apply Qclt_le_weak. now apply Qcnot_le_lt. }
  destruct Hm as [[Hm Ha] Hc]. split; [eapply Qcle_trans; eassumption|]. split.
  - intros x [<-|Hx]; [eapply Qcle_trans; eassumption|now apply H2].
  - destruct H3 as [H3|H3]; [|right; now right]. destruct Hc as [Hc|Hc]; [left; congruence|right; left; congruence].
Qed.
Lemma list_max_spec l : l <> [] -> In (list_max l) l /\ forall x, In x l -> (x <= list_max l)%num.
Proof.
  destruct l as [|a l]; [congruence|]. intros _. cbn [list_max]. destruct (fold_qmax_ge l a) as (H1 & H2 & H3). split.
  - destruct H3 as [-> |H3]; [now left|now right].
  - intros x [<-|Hx]; auto.
Qed.
Lemma list_min_spec l : l <> [] -> In (list_min l) l /\ forall x, In x l -> (list_min l <= x)%num.
Proof.
  destruct l as [|a l]; [congruence|]. intros _. cbn [list_min]. destruct (fold_qmin_le l a) as (H1 & H2 & H3). split.
  - destruct H3 as [-> |H3]; [now left|now right].
  - intros x [<-|Hx]; auto.
Qed.
(** in the direction of the flow *)
Definition directed (r : bool) (ts : list num) : Prop := if r then decreasing ts else increasing ts.
Lemma directed_reverse r ts : increasing ts -> directed r (list_reverse r ts).
Proof. destruct r; [apply rev_decreasing|auto]. Qed.
Lemma directed_monotone r ts : directed r ts -> monotone ts.
Proof. destruct r; [now right|now left]. Qed.
Lemma first_before r ts u : directed r ts -> In u ts -> flows_before r (nth 0 ts 0%num) u.
Proof.
  intros H Hu. destruct (In_nth _ _ 0%num Hu) as (k & Hk & <-). destruct k as [|k]; [destruct r; apply Qcle_refl|].
  destruct r; cbn in H |- *; apply Qclt_le_weak, H; lia.
Qed.
Lemma snap_spec r ts t : directed r ts -> ts <> [] -> last_before r ts t (snap r ts t).
Proof.
  intros Hd Hne. unfold snap. destruct (existsb (qeqb t) ts) eqn:E.
  - apply existsb_exists in E. destruct E as (x & Hx & E). destruct (qeqb_spec t x) as [<-|]; [|discriminate].
    split; [exact Hx|]. split; [left; destruct r; apply Qcle_refl|auto].
  - assert (H0 : In (nth 0 ts 0%num) ts). { destruct ts as [|a ts]; [congruence|]. now left. }
    assert (HN : forall u, In u ts -> u <> t). { intros u Hu ->. assert (existsb (qeqb t) ts = true); [|congruence]. apply existsb_exists. exists t. split; [exact Hu|]. now destruct (qeqb_spec t t). }
    assert (HF := fun u => first_before r ts u Hd). set (t0 := nth 0 ts 0%num) in *. destruct r; cbn [negb andb orb].
    + destruct (qleb_spec t0 t) as [H|H].
      * split; [exact H0|]. split; [now right|]. intros u Hu Hb. assert (HFu := HF u Hu). cbn in *. exfalso. apply (HN u Hu). apply Qcle_antisym; [eapply Qcle_trans; eassumption|exact Hb].
      * assert (HL : filter (fun s => qleb t s) ts <> []). { intros E0. assert (HI : In t0 (filter (fun s => qleb t s) ts)). { apply filter_In. split; [exact H0|]. destruct (qleb_spec t t0) as [_|N]; [reflexivity|]. exfalso. revert H N. generalize t0 t. qlra. } rewrite E0 in HI. destruct HI. }
        destruct (list_min_spec _ HL) as [H1 H2]. apply filter_In in H1. destruct H1 as [H1 H1']. split; [exact H1|]. split.
        -- left. cbn. destruct (qleb_spec t (list_min (filter (fun s => qleb t s) ts))) as [Hx|Hx]; [exact Hx|discriminate].
        -- intros u Hu Hb. cbn in *. apply H2. apply filter_In. split; [exact Hu|]. destruct (qleb_spec t u); [reflexivity|contradiction].
    + destruct (qleb_spec t t0) as [H|H]; cbn [orb].
      * split; [exact H0|]. split; [now right|]. intros u Hu Hb. assert (HFu := HF u Hu). cbn in *. exfalso. apply (HN u Hu). apply Qcle_antisym; [exact Hb|]. eapply Qcle_trans; eassumption.
      * assert (HL : filter (fun s => qleb s t) ts <> []). { intros E0. assert (HI : In t0 (filter (fun s => qleb s t) ts)). { apply filter_In. split; [exact H0|]. destruct (qleb_spec t0 t) as [_|N]; [reflexivity|]. exfalso. revert H N. generalize t0 t. qlra. } rewrite E0 in HI. destruct HI. }
        destruct (list_max_spec _ HL) as [H1 H2]. apply filter_In in H1. destruct H1 as [H1 H1']. split; [exact H1|]. split.
        -- left. cbn. destruct (qleb_spec (list_max (filter (fun s => qleb s t) ts)) t) as [Hx|Hx]; [exact Hx|discriminate].
        -- intros u Hu Hb. cbn in *. apply H2. apply filter_In. split; [exact Hu|]. destruct (qleb_spec u t); [reflexivity|contradiction].
Qed.
Lemma monotone_inj ts a b : monotone ts -> a < length ts -> b < length ts -> nth a ts 0%num = nth b ts 0%num -> a = b.
Proof.
  intros H Ha Hb E. destruct (Nat.lt_trichotomy a b) as [L|[L|L]]; [|exact L|]; exfalso.
  - destruct H as [H|H]; assert (HX := H a b L Hb); rewrite E in HX; revert HX; generalize (nth b ts 0%num); qlra.
  - destruct H as [H|H]; assert (HX := H b a L Ha); rewrite E in HX; revert HX; generalize (nth b ts 0%num); qlra.
Qed.
Lemma filter_unique {A} (f : A -> bool) l x : NoDup l -> In x l -> f x = true -> (forall y, In y l -> f y = true -> y = x) -> filter f l = [x].
Proof.
  intros HN Hx Hf Hu. induction l as [|a l IH]; [destruct Hx|]. inversion HN as [|? ? Ha HN']; subst. cbn [filter].
  destruct (f a) eqn:E.
  - assert (a = x) by (apply Hu; [now left|exact E]). subst a. f_equal. clear IH Hx Hf. induction l as [|b l IHl]; [reflexivity|]. cbn [filter]. destruct (f b) eqn:Eb.
    + assert (b = x) by (apply Hu; [right; now left|exact Eb]). subst b. exfalso. apply Ha. now left.
    + apply IHl.
      * inversion HN as [|? ? Hn1 Hn2]; subst. inversion Hn2; subst. constructor; [|assumption]. intros Hi. apply Ha. now right.
      * intros y [<-|Hy] Hfy; [reflexivity|apply Hu; [right; now right|exact Hfy]].
      * intros Hi. apply Ha. now right.
      * inversion HN'; assumption.
  - destruct Hx as [<-|Hx]; [congruence|]. apply IH; auto. intros y Hy. apply Hu. now right.
Qed.
Lemma index_of_nth ts k : monotone ts -> k < length ts -> index_of ts (nth k ts 0%num) = Some k.
Proof.
  intros H Hk. unfold index_of. rewrite (filter_unique _ _ k); [reflexivity|apply seq_NoDup|now apply seq_In_iff| |].
  - now destruct (qeqb_spec (nth k ts 0%num) (nth k ts 0%num)).
  - intros y Hy E. apply seq_In_iff in Hy. destruct (qeqb_spec (nth y ts 0%num) (nth k ts 0%num)) as [E1|]; [|discriminate]. now apply (monotone_inj ts).
Qed.
(** index of the snapped time *)
Definition place (r : bool) (ts : list num) (t : num) : nat :=
  match index_of ts (snap r ts t) with Some k => k | None => 0 end.
Lemma place_spec r ts t : directed r ts -> ts <> [] -> place r ts t < length ts /\ nth (place r ts t) ts 0%num = snap r ts t /\ index_of ts (snap r ts t) = Some (place r ts t).
Proof.
  intros Hd Hne. destruct (snap_spec r ts t Hd Hne) as (Hi & _). destruct (In_nth _ _ 0%num Hi) as (k & Hk & E).
  assert (HI := index_of_nth ts k (directed_monotone _ _ Hd) Hk). rewrite E in HI. unfold place. rewrite HI. auto.
Qed.
Lemma all_some_map {A B} (f : A -> option B) (g : A -> B) l : (forall a, In a l -> f a = Some (g a)) -> all_some (map f l) = Some (map g l).
Proof. induction l as [|a l IH]; intros H; cbn; [reflexivity|]. rewrite (H a) by now left. rewrite IH by (intros b Hb; apply H; now right). reflexivity. Qed.
Lemma time_grid_some r ts g : directed r ts -> ts <> [] ->
  time_grid r ts (Some g) = Some (map (place r ts) (orient r g), map (snap r ts) (orient r g)).
Proof.
  intros Hd Hne. unfold time_grid. rewrite map_map, (all_some_map _ (place r ts)); [reflexivity|]. intros t _. now apply place_spec.
Qed.
Lemma last_before_unique r ts t s s' : directed r ts -> last_before r ts t s -> last_before r ts t s' -> s = s'.
Proof.
  intros Hd (Hi & Hb & Hm) (Hi' & Hb' & Hm').
  assert (HF := first_before r ts s Hd Hi). assert (HF' := first_before r ts s' Hd Hi').
  assert (A1 : flows_before r s s' \/ s = nth 0 ts 0%num) by (destruct Hb as [Hb|Hb]; [left; now apply Hm'|now right]).
  assert (A2 : flows_before r s' s \/ s' = nth 0 ts 0%num) by (destruct Hb' as [Hb'|Hb']; [left; now apply Hm|now right]).
  assert (B1 : flows_before r s s') by (destruct A1 as [A1| ->]; [exact A1|exact HF']).
  assert (B2 : flows_before r s' s) by (destruct A2 as [A2| ->]; [exact A2|exact HF]).
  destruct r; cbn in B1, B2; now apply Qcle_antisym.
Qed.
Lemma orient_in r g t : In t (orient r g) <-> In t g.
Proof. unfold orient. destruct (direction g); [|reflexivity]. destruct (_ || _)%bool; [symmetry; apply in_rev|reflexivity]. Qed.

(** ** The object *)
Definition source (n : nat) (kd : kind) (TL TI : option (list mat)) (r : bool) : option (list mat) :=
  match TL, TI with Some Ts, _ => Some Ts | None, Some l => compute_T_list n kd (list_reverse r l) | None, None => None end.
Definition the_ts (r : bool) (tl : option (list num)) (Ts : list mat) : list num := list_reverse r (the_times tl (length Ts)).
Definition integral_at (n : nat) (kd : kind) (rtol : option num) (p : nat -> num) (Ts : list mat) (ts : list num) (m : nat) : mat :=
  minus_outer p (finish kd p (sum_after n kd rtol p (fun _ _ => 0%num) (firstn m (steps_of Ts ts))) (total_after 0%num (firstn m (steps_of Ts ts)))).
Lemma flow_integral_unfold n kd TL TI p1 tl g r rtol : flow_integral n kd TL TI p1 tl g r rtol =
  match source n kd TL TI r with
  | None | Some [] => None
  | Some Ts => match the_ts r tl Ts with [] => None | ts =>
      match time_grid r ts g with
      | None => None
      | Some (kg, tg) => match compute_integral n kd rtol (the_distribution n p1) kg Ts ts with
          | None => None
          | Some PTs => Some (mkFlow Ts ts kg tg (the_distribution n p1) (map (minus_outer (the_distribution n p1)) PTs)) end
      end end
  end.
Proof.
  unfold flow_integral, source, the_ts, the_times, unit_times. destruct (match TL with Some _ => _ | None => _ end) as [[|T Ts]|]; try reflexivity.
  rewrite Nat.add_1_r. destruct p1; destruct (list_reverse r _); reflexivity.
Qed.
Lemma flow_integral_some n kd TL TI p1 tl g r rtol F : flow_integral n kd TL TI p1 tl g r rtol = Some F ->
  exists Ts kg tg, source n kd TL TI r = Some Ts /\ Ts <> [] /\ the_ts r tl Ts <> [] /\ time_grid r (the_ts r tl Ts) g = Some (kg, tg) /\
    F = mkFlow Ts (the_ts r tl Ts) kg tg (the_distribution n p1)
      (map (integral_at n kd rtol (the_distribution n p1) Ts (the_ts r tl Ts)) (stored kg 0 (length (steps_of Ts (the_ts r tl Ts))))).
Proof.
  rewrite flow_integral_unfold. destruct (source n kd TL TI r) as [[|T Ts]|]; try discriminate.
  set (ts := the_ts r tl (T :: Ts)). assert (Hts : ts = the_ts r tl (T :: Ts)) by reflexivity. clearbody ts. destruct ts as [|t ts]; [discriminate|]. cbv zeta.
  destruct (time_grid r (t :: ts) g) as [[kg tg]|] eqn:EG; [|discriminate].
  destruct (compute_integral _ _ _ _ _ _ _) as [PTs|] eqn:EC; [|discriminate]. intros E. injection E as <-.
  exists (T :: Ts), kg, tg. rewrite <- Hts. split; [reflexivity|]. split; [discriminate|]. split; [discriminate|]. split; [exact EG|].
  unfold compute_integral in EC. apply integrals_some in EC. f_equal. rewrite EC, map_map. reflexivity.
Qed.
Lemma flow_integral_total n kd TL TI p1 tl g r rtol Ts : source n kd TL TI r = Some Ts -> Ts <> [] ->
  directed r (the_ts r tl Ts) -> the_ts r tl Ts <> [] -> exists F, flow_integral n kd TL TI p1 tl g r rtol = Some F.
Proof.
  intros ES HT Hd Hne. rewrite flow_integral_unfold, ES. destruct Ts as [|T Ts]; [congruence|].
  set (ts := the_ts r tl (T :: Ts)) in *. clearbody ts. destruct ts as [|t ts'] eqn:Ets; [congruence|]. cbv zeta. rewrite <- Ets in *.
  assert (EG : exists kg tg, time_grid r ts g = Some (kg, tg)).
  { destruct g as [g|]; [rewrite time_grid_some by assumption|]; eexists; eexists; reflexivity. }
  destruct EG as (kg & tg & EG). rewrite EG. unfold compute_integral. fold (steps_of (T :: Ts) ts). rewrite integrals_out; [eexists; reflexivity|].
  intros m Hm. unfold stored in Hm. apply filter_In in Hm. destruct Hm as [Hm _]. apply in_seq in Hm.
  rewrite steps_total by (try lia; exact (directed_monotone _ _ Hd)). apply qneq_pos, gap_sum_pos; [exact (directed_monotone _ _ Hd)|lia|]. rewrite steps_length in Hm. lia.
Qed.
Lemma times_increasing tl K : times_ok tl -> increasing (the_times tl K).
Proof.
  intros H. destruct tl as [ts|]; [exact H|]. cbn [the_times]. intros a b Hab Hb. rewrite map_length, seq_length in Hb.
  assert (E : forall k, k < S K -> nth k (map qn (seq 0 (S K))) 0%num = qn k).
  { intros k Hk. rewrite <- qn_0, map_nth, seq_nth by lia. reflexivity. }
  rewrite !E by lia. now apply qn_lt.
Qed.
Lemma distribution_the n p1 : distribution_ok n p1 -> distribution n (the_distribution n p1).
Proof.
  intros H. destruct p1 as [p|]; [exact H|]. cbn in *. assert (Hn : (0 < qn n)%num) by (rewrite <- qn_0; now apply qn_lt). split.
  - intros i _. apply qdiv_nonneg; [vm_compute; discriminate|exact Hn].
  - unfold sumN. rewrite sumL_const, seq_length. field. now apply qneq_pos.
Qed.
Lemma source_stochastic n kd TL TI r Ts : (forall l B, TL = Some l \/ TI = Some l -> In B l -> stochastic n B) ->
  source n kd TL TI r = Some Ts -> forall k, k < length Ts -> stochastic n (nth k Ts ident).
Proof.
  intros H E k Hk. unfold source in E. destruct TL as [l|].
  - injection E as ->. apply (H Ts); [now left|now apply nth_In].
  - destruct TI as [l|]; [|discriminate]. assert (Hl : forall A, In A (list_reverse r l) -> stochastic n A).
    { intros A HA. apply (H l); [now right|]. destruct r; [now apply in_rev|exact HA]. }
    destruct (T_list_transition n kd _ _ Hl E) as [HL HT]. apply HT. lia.
Qed.

(** ** Which integrals are stored *)
Lemma stored_in kg len m : In m (stored kg 0 len) <-> In m kg /\ 0 < m /\ m <= len.
Proof. unfold stored. rewrite filter_In, in_seq. cbn [Nat.add]. rewrite memb_In. split; intros [H1 H2]; split; try assumption; lia. Qed.
Lemma seq_sorted s l : StronglySorted Nat.lt (seq s l).
Proof. revert s. induction l as [|l IH]; intros s; cbn; constructor; [apply IH|]. apply Forall_forall. intros x Hx. apply in_seq in Hx. lia. Qed.
Lemma filter_sorted {A} (R : A -> A -> Prop) f l : StronglySorted R l -> StronglySorted R (filter f l).
Proof.
  induction 1 as [|a l H IH HF]; cbn; [constructor|]. destruct (f a); [constructor; [exact IH|]|exact IH]. rewrite Forall_forall in HF |- *. intros x Hx. apply filter_In in Hx. now apply HF.
Qed.
Lemma stored_sorted kg len : StronglySorted Nat.lt (stored kg 0 len).
Proof. apply filter_sorted, seq_sorted. Qed.
Lemma sorted_same (l l' : list nat) : StronglySorted Nat.lt l -> StronglySorted Nat.lt l' -> (forall x, In x l <-> In x l') -> l = l'.
Proof.
  intros H. revert l'. induction H as [|a l H IH HF]; intros l' H' HI.
  - destruct l' as [|b l']; [reflexivity|]. exfalso. destruct (proj2 (HI b)). now left.
  - destruct H' as [|b l' H' HF'].
    { exfalso. destruct (proj1 (HI a)). now left. }
    rewrite Forall_forall in HF, HF'. assert (a = b).
    { destruct (proj1 (HI a) ltac:(now left)) as [E|Hab]; [congruence|]. destruct (proj2 (HI b) ltac:(now left)) as [E|Hba]; [congruence|]. specialize (HF b Hba). specialize (HF' a Hab). unfold Nat.lt in *. lia. }
    subst b. f_equal. apply IH; [exact H'|]. intros x. split; intros Hx.
    + destruct (proj1 (HI x) ltac:(now right)) as [E|Hx']; [|exact Hx']. subst x. specialize (HF a Hx). unfold Nat.lt in HF. lia.
    + destruct (proj2 (HI x) ltac:(now right)) as [E|Hx']; [|exact Hx']. subst x. specialize (HF' a Hx). unfold Nat.lt in HF'. lia.
Qed.

(** ** Rounding *)
Section Round.
Context (n : nat) (r : num) (p : nat -> num) (pmin : num) (Hr : (0 <= r)%num) (Hp : distribution n p) (Hpos : (0 < pmin)%num) (Hmin : forall i, i < n -> (pmin <= p i)%num).
Lemma gram_bounds T dt i j : stochastic n T -> (0 <= dt)%num -> i < n -> j < n -> (0 <= gram n p T dt i j /\ gram n p T dt i j <= dt / pmin)%num.
Proof.
  intros HT Hdt Hi Hj. assert (HT' := HT). destruct HT' as [Hnn Hs]. unfold gram.
  assert (Hterm : forall k, k < n -> (0 <= T i k * (1 / safe (arrival n p T k)) * T j k /\ T i k * (1 / safe (arrival n p T k)) * T j k <= T i k * / pmin)%num).
  { intros k Hk. unfold safe. change (arrival n p T k) with (at_end n p T k). assert (Hik := Hnn i k Hi Hk). assert (Hjk := Hnn j k Hj Hk).
    assert (Hpj := Hmin j Hj). assert (HA := at_end_nonneg n p T Hp HT k Hk). assert (Hi0 := qinv_pos _ Hpos).
    destruct (qeqb_spec (at_end n p T k) 0%num) as [E|E].
    - assert (H0 := at_end_zero n p T Hp HT j k Hj Hk E). assert (HTj : T j k = 0%num).
      { destruct (Qcmult_integral _ _ H0) as [H1|H1]; [|exact H1]. exfalso. rewrite H1 in Hpj. revert Hpj Hpos. clear. qlra. }
      rewrite HTj. replace (T i k * (1 / 1) * 0)%num with 0%num by ring. split; [apply Qcle_refl|]. apply qmult_nonneg; [exact Hik|now apply Qclt_le_weak].
    - assert (HA' : (0 < at_end n p T k)%num) by (destruct (qle_lt_or_eq _ _ HA) as [H|H]; [exact H|congruence]). assert (HI := qinv_pos _ HA').
      assert (HX : (p j * T j k <= at_end n p T k)%num).
      { unfold at_end. apply (sumL_nonneg_term (fun i => (p i * T i k)%num) (seq 0 n)); [|now apply seq_In_iff]. intros a Ha. apply seq_In_iff in Ha. apply qmult_nonneg; [now apply Hp|now apply Hnn]. }
      replace (T i k * (1 / at_end n p T k) * T j k)%num with (T i k * (T j k * / at_end n p T k))%num by (unfold Qcdiv; ring). split.
      + apply qmult_nonneg; [exact Hik|]. apply qmult_nonneg; [exact Hjk|now apply Qclt_le_weak].
      + assert (HY : (T j k * / at_end n p T k <= / pmin)%num).
        { assert (HZ : (pmin * T j k <= at_end n p T k)%num).
          { apply Qcle_trans with (p j * T j k)%num; [|exact HX]. revert Hpj Hjk. generalize (p j) (T j k). clear. qnra. }
          replace (T j k * / at_end n p T k)%num with ((pmin * T j k) * (/ at_end n p T k * / pmin))%num by (field; split; [exact E|now apply qneq_pos]).
          replace (/ pmin)%num with (at_end n p T k * (/ at_end n p T k * / pmin))%num at 2 by (field; split; [now apply qneq_pos|exact E]).
          assert (HP := qmult_pos _ _ HI Hi0). revert HZ HP. generalize (pmin * T j k)%num (at_end n p T k) (/ at_end n p T k * / pmin)%num. clear. qnra. }
        revert HY Hik. generalize (T j k * / at_end n p T k)%num (/ pmin)%num (T i k). clear. qnra. }
  assert (H1 : (0 <= sumN n (fun k => T i k * (1 / safe (arrival n p T k)) * T j k))%num) by (apply sumN_nonneg; intros k Hk; now apply Hterm).
  assert (H2 : (sumN n (fun k => T i k * (1 / safe (arrival n p T k)) * T j k) <= / pmin)%num).
  { apply Qcle_trans with (sumN n (fun k => T i k * / pmin)%num).
    - apply sumL_le. intros k Hk. apply seq_In_iff in Hk. now apply Hterm.
    - rewrite sumN_scal_r. change (sumN n (fun k => T i k)) with (sumN n (T i)). rewrite (Hs i Hi). replace (1 * / pmin)%num with (/ pmin)%num by ring. apply Qcle_refl. }
  change (dt / pmin)%num with (dt * / pmin)%num. revert H1 H2 Hdt. generalize (sumN n (fun k => T i k * (1 / safe (arrival n p T k)) * T j k))%num (/ pmin)%num. clear. intros a b H1 H2 H3. split; [now apply qmult_nonneg|].
  assert (H4 : (0 <= (b - a) * dt)%num) by (apply qmult_nonneg; [revert H2; clear; qlra|exact H3]). replace (dt * b)%num with (a * dt + (b - a) * dt)%num by ring. revert H4. generalize (a * dt)%num ((b - a) * dt)%num. clear. qlra.
Qed.
Lemma absmax_le A B : (0 <= B)%num -> (forall i j, i < n -> j < n -> (qabs (A i j) <= B)%num) -> (absmax n A <= B)%num.
Proof. intros HB H. destruct (absmax_attained n A) as [[-> _]|(a & b & Ha & Hb & ->)]; auto. Qed.
Lemma zeroed_near A B i j : (0 <= B)%num -> (forall i j, i < n -> j < n -> (0 <= A i j /\ A i j <= B)%num) -> i < n -> j < n ->
  (0 <= zeroed_abs n (Some r) A i j /\ zeroed_abs n (Some r) A i j <= A i j /\ A i j - zeroed_abs n (Some r) A i j <= r * B)%num.
Proof.
  intros HB H Hi Hj. assert (HM : (absmax n A <= B)%num).
  { apply absmax_le; [exact HB|]. intros a b Ha Hb. destruct (H a b Ha Hb) as [H1 H2]. unfold qabs. destruct (qltb_spec (A a b) 0%num); [|exact H2]. revert q H1. generalize (A a b). clear. qlra. }
  destruct (H i j Hi Hj) as [H1 H2]. assert (HRB := qmult_nonneg _ _ Hr HB).
  unfold zeroed_abs. destruct (qleb_spec (qabs (A i j)) (r * absmax n A)%num) as [HL|_].
  - split; [apply Qcle_refl|]. split; [exact H1|]. assert (HX : (A i j <= qabs (A i j))%num) by (unfold qabs; destruct (qltb_spec (A i j) 0%num); generalize dependent (A i j); clear; intros; qlra).
    revert HL HX HM Hr. generalize (A i j) (qabs (A i j)) (absmax n A). clear. intros x y z. qnra.
  - split; [exact H1|]. split; [apply Qcle_refl|]. revert HRB. generalize (A i j) (r * B)%num. clear. qlra.
Qed.
Definition steps_ok (l : list (mat * num)) : Prop := forall x, In x l -> stochastic n (fst x) /\ (0 <= snd x)%num.
Lemma gram_sum_bounds l i j : steps_ok l -> i < n -> j < n -> (0 <= gram_sum n p l i j /\ gram_sum n p l i j <= sumL snd l / pmin)%num.
Proof.
  intros Hl Hi Hj. unfold gram_sum. split.
  - apply sumL_nonneg. intros x Hx. destruct (Hl x Hx). now apply gram_bounds.
  - unfold Qcdiv. rewrite <- sumL_scal_r. apply sumL_le. intros x Hx. destruct (Hl x Hx). now apply gram_bounds.
Qed.
Lemma sum_rounded mkl l : steps_ok l -> forall i j, i < n -> j < n ->
  let S := sum_after n (Sparse mkl) (Some r) p (fun _ _ => 0%num) l i j in let D := part (Sparse mkl) (gram_sum n p l) i j in
  (0 <= S /\ S <= D /\ D - S <= qn (length l) * ((r + r) * (sumL snd l / pmin)))%num.
Proof.
  induction l as [|x l IH] using rev_ind; intros Hl i j Hi Hj.
  - cbv zeta. cbn [sum_after fold_left length]. change (sum_after n (Sparse mkl) (Some r) p (fun _ _ => 0%num) [] i j) with 0%num. assert (part (Sparse mkl) (gram_sum n p []) i j = 0%num) as -> by (unfold part, upper, gram_sum; destruct mkl; [destruct (i <=? j)|]; reflexivity).
    rewrite sumL_nil. split; [apply Qcle_refl|]. split; [apply Qcle_refl|]. unfold Qcdiv. rewrite qn_0. replace (0 * ((r + r) * (0 * / pmin)))%num with 0%num by ring. apply Qcle_refl.
  - assert (Hl' : steps_ok l) by (intros y Hy; apply Hl, in_or_app; now left). destruct (Hl x ltac:(apply in_or_app; right; now left)) as [HT Hdt].
    cbv zeta. unfold sum_after. rewrite fold_left_app. cbn [fold_left]. fold (sum_after n (Sparse mkl) (Some r) p (fun _ _ => 0%num) l).
    set (S0 := sum_after n (Sparse mkl) (Some r) p (fun _ _ => 0%num) l) in *.
    assert (Hsum : sumL snd (l ++ [x]) = (sumL snd l + snd x)%num) by (rewrite sumL_app; cbn; ring).
    set (M := (sumL snd l / pmin)%num). set (M' := (sumL snd (l ++ [x]) / pmin)%num). set (m := (snd x / pmin)%num).
    assert (HMm : M' = (M + m)%num) by (unfold M', M, m; rewrite Hsum; unfold Qcdiv; ring).
    assert (HM0 : (0 <= M)%num). { unfold M. apply qdiv_nonneg; [|exact Hpos]. apply sumL_nonneg. intros y Hy. now apply Hl'. }
    assert (Hm0 : (0 <= m)%num) by (apply qdiv_nonneg; assumption).
    assert (HS : forall a b, a < n -> b < n -> (0 <= S0 a b /\ S0 a b <= M)%num).
    { intros a b Ha Hb. destruct (IH Hl' a b Ha Hb) as (H1 & H2 & _). fold S0 in H1, H2. split; [exact H1|]. eapply Qcle_trans; [exact H2|].
      destruct (gram_sum_bounds l a b Hl' Ha Hb) as [_ H3]. unfold part, upper. destruct mkl; [destruct (a <=? b)|]; assumption. }
    set (G := if mkl then upper (gram n p (fst x) (snd x)) else gram n p (fst x) (snd x)).
    assert (HG : forall a b, a < n -> b < n -> (0 <= G a b /\ G a b <= m)%num).
    { intros a b Ha Hb. destruct (gram_bounds (fst x) (snd x) a b HT Hdt Ha Hb) as [H1 H2]. fold m in H2. unfold G, upper. destruct mkl; [destruct (a <=? b)|]; split; try assumption. apply Qcle_refl. }
    destruct (zeroed_near S0 M i j HM0 HS Hi Hj) as (Z1 & Z2 & Z3). destruct (zeroed_near G m i j Hm0 HG Hi Hj) as (Y1 & Y2 & Y3).
    assert (ED : part (Sparse mkl) (gram_sum n p (l ++ [x])) i j = (part (Sparse mkl) (gram_sum n p l) i j + G i j)%num).
    { assert (E0 : gram_sum n p (l ++ [x]) i j = (gram_sum n p l i j + gram n p (fst x) (snd x) i j)%num) by (unfold gram_sum; rewrite sumL_app; cbn; ring).
      unfold part, G, upper. destruct mkl; [destruct (i <=? j)|]; rewrite ?E0; ring. }
    rewrite ED. destruct (IH Hl' i j Hi Hj) as (H1 & H2 & H3). fold S0 M in H1, H2, H3. cbn [add_step]. fold G. unfold mplus.
    rewrite app_length. cbn [length]. rewrite Nat.add_1_r, qn_S, HMm.
    assert (HK := qn_nonneg (length l)).
    revert Z1 Z2 Z3 Y1 Y2 Y3 H1 H2 H3 HM0 Hm0 Hr HK.
    generalize (zeroed_abs n (Some r) S0 i j) (zeroed_abs n (Some r) G i j) (S0 i j) (G i j) (part (Sparse mkl) (gram_sum n p l) i j) (qn (length l)) M m. clear.
    intros z y s g d K M m Z1 Z2 Z3 Y1 Y2 Y3 H1 H2 H3 HM Hm Hr HK.
    assert (P1 := qmult_nonneg _ _ Hr HM). assert (P2 := qmult_nonneg _ _ Hr Hm). assert (P3 := qmult_nonneg _ _ HK P2).
    split; [revert Z1 Y1; clear; qlra|]. split; [revert Z2 Y2 H2; clear; qlra|].
    replace ((K + 1) * ((r + r) * (M + m)))%num with (K * ((r + r) * M) + (K * (r * m) + K * (r * m)) + (r * M + r * M) + (r * m + r * m))%num by ring.
    revert Z3 Y3 H3 P1 P2 P3. generalize (r * M)%num (r * m)%num (K * (r * m))%num (K * ((r + r) * M))%num. clear. qlra.
Qed.
End Round.

(** ** The stored integrals *)
Lemma nth_firstn_below {A} (l : list A) i k d : i < k -> nth i (firstn k l) d = nth i l d.
Proof. revert i k. induction l as [|a l IH]; intros i k H; [now rewrite firstn_nil|]. destruct k as [|k]; [lia|]. destruct i as [|i]; [reflexivity|]. cbn [firstn nth]. apply IH. lia. Qed.
Lemma list_reverse_length {A} r (l : list A) : length (list_reverse r l) = length l.
Proof. destruct r; [apply rev_length|reflexivity]. Qed.
Lemma source_facts n kd TL TI r Ts : all_stochastic n TL TI -> source n kd TL TI r = Some Ts ->
  length Ts = length (given TL TI) /\ forall k, k < length Ts -> stochastic n (nth k Ts ident) /\ eqm n (nth k Ts ident) (flow_transition n TL TI r k).
Proof.
  intros H E. unfold source in E. destruct TL as [l|].
  - injection E as ->. split; [reflexivity|]. intros k Hk. split; [apply H; now apply nth_In|apply eqm_refl].
  - destruct TI as [l|]; [|discriminate]. assert (Hl : forall A, In A (list_reverse r l) -> stochastic n A).
    { intros A HA. apply H. cbn [given]. destruct r; [now apply in_rev|exact HA]. }
    destruct (T_list_transition n kd _ _ Hl E) as [HL HT]. rewrite list_reverse_length in HL. split; [exact HL|].
    intros k Hk. destruct (HT k ltac:(rewrite list_reverse_length; lia)) as [H1 H2]. split; [exact H2|exact H1].
Qed.
Lemma flow_times_the_ts TL TI tl r Ts : length Ts = length (given TL TI) -> the_ts r tl Ts = flow_times TL TI tl r.
Proof. intros E. unfold the_ts, flow_times. now rewrite E. Qed.
Lemma flow_times_directed TL TI tl r : times_ok tl -> directed r (flow_times TL TI tl r).
Proof. intros H. apply (directed_reverse r). now apply times_increasing. Qed.
Lemma flow_times_length TL TI tl r : length (flow_times TL TI tl r) = length (the_times tl (length (given TL TI))).
Proof. unfold flow_times. destruct r; [apply rev_length|reflexivity]. Qed.
(** the position of the stored integrals, whatever the rounding *)
Lemma flow_stored n kd TL TI p1 tl g r rtol F : all_stochastic n TL TI -> flow_integral n kd TL TI p1 tl g r rtol = Some F ->
  exists Ts kg tg, source n kd TL TI r = Some Ts /\ length Ts = length (given TL TI) /\ flow_times TL TI tl r <> [] /\
    time_grid r (flow_times TL TI tl r) g = Some (kg, tg) /\ f_k F = kg /\ f_t F = tg /\ f_times F = flow_times TL TI tl r /\ f_T F = Ts /\
    f_I F = map (integral_at n kd rtol (the_distribution n p1) Ts (flow_times TL TI tl r)) (stored kg 0 (steps_in TL TI tl)).
Proof.
  intros HS HF. destruct (flow_integral_some _ _ _ _ _ _ _ _ _ _ HF) as (Ts & kg & tg & ES & HT & Hne & EG & ->).
  destruct (source_facts n kd TL TI r Ts HS ES) as [HL HK]. rewrite (flow_times_the_ts TL TI tl r Ts HL) in *.
  exists Ts, kg, tg. repeat (split; [first [assumption|reflexivity]|]). cbn [f_I]. rewrite steps_length, flow_times_length, HL. reflexivity.
Qed.
Lemma integral_at_average n kd TL TI p1 tl r rtol Ts m : exact kd rtol -> distribution_ok n p1 -> times_ok tl -> all_stochastic n TL TI ->
  source n kd TL TI r = Some Ts -> 0 < m -> m <= steps_in TL TI tl ->
  eqm n (integral_at n kd rtol (the_distribution n p1) Ts (flow_times TL TI tl r) m) (flow_average n TL TI p1 tl r m).
Proof.
  intros He Hp Ht HS ES H0 Hm. destruct (source_facts n kd TL TI r Ts HS ES) as [HL HK]. unfold steps_in in Hm.
  eapply eqm_trans; [apply stored_average|].
  - exact He.
  - now apply distribution_the.
  - intros k Hk. apply HK. lia.
  - eapply directed_monotone. now apply flow_times_directed.
  - exact H0.
  - rewrite steps_length, flow_times_length. lia.
  - apply average_ext. intros k Hk. apply HK. lia.
Qed.
Lemma integral_at_rounded n mkl TL TI p1 tl r rtol Ts m pmin : (0 <= rtol)%num -> distribution_ok n p1 -> times_ok tl -> all_stochastic n TL TI ->
  (0 < pmin)%num -> (forall i, i < n -> (pmin <= the_distribution n p1 i)%num) ->
  source n (Sparse mkl) TL TI r = Some Ts -> 0 < m -> m <= steps_in TL TI tl -> forall i j, i < n -> j < n ->
  let p := the_distribution n p1 in
  let A := integral_at n (Sparse mkl) (Some rtol) p Ts (flow_times TL TI tl r) m i j in let B := flow_average n TL TI p1 tl r m i j in
  (0 <= B - A /\ B - A <= qn m * ((rtol + rtol) * (p i * p j / pmin)))%num.
Proof.
  intros Hr Hp Ht HS Hpos Hmin ES H0 Hm i j Hi Hj p A B. destruct (source_facts n (Sparse mkl) TL TI r Ts HS ES) as [HL HK]. unfold steps_in in Hm.
  assert (HP := distribution_the n p1 Hp). fold p in HP, Hmin. set (ts := flow_times TL TI tl r) in *.
  assert (Hd := flow_times_directed TL TI tl r Ht). fold ts in Hd. assert (Hmono := directed_monotone _ _ Hd).
  assert (Hlen : length (steps_of Ts ts) = min (length Ts) (length ts - 1)) by apply steps_length.
  assert (Hlts : length ts = length (the_times tl (length (given TL TI)))) by apply flow_times_length.
  set (l := firstn m (steps_of Ts ts)).
  assert (Hl : steps_ok n l).
  { intros x Hx. unfold l in Hx. destruct (In_nth _ _ (ident, 0%num) Hx) as (k & Hk & <-). rewrite firstn_length in Hk. rewrite (nth_firstn_below _ k m (ident, 0%num)) by lia.
    unfold steps_of. rewrite nth_combine_fst by (rewrite ?dt_length; lia). cbn [fst snd]. split; [apply HK; lia|]. destruct (dt_nth ts k Hmono ltac:(lia)) as [-> H1]. now apply Qclt_le_weak. }
  assert (Htot : sumL snd l = sumN m (gap ts)). { rewrite <- (steps_total Ts ts m Hmono) by lia. rewrite total_after_sum. fold l. ring. }
  assert (Hll : length l = m) by (unfold l; rewrite firstn_length; lia).
  assert (HTp : (0 < sumN m (gap ts))%num) by (apply gap_sum_pos; [exact Hmono|exact H0|lia]).
  assert (HB : B = minus_outer p (weighted p (gram_sum n p l) (sumN m (gap ts))) i j).
  { unfold B, flow_average. fold p ts. rewrite <- (average_ext n p (fun k => nth k Ts ident) _ ts m) by (try assumption; intros k Hk; apply HK; lia).
    symmetry. apply gram_average; try assumption; [intros k Hk; apply HK; lia|lia]. }
  assert (HA : A = minus_outer p (finish (Sparse mkl) p (sum_after n (Sparse mkl) (Some rtol) p (fun _ _ => 0%num) l) (sumN m (gap ts))) i j).
  { unfold A, integral_at. fold l. now rewrite total_after_sum, Htot, Qcplus_0_l. }
  assert (HR := sum_rounded n rtol p pmin Hr HP Hpos Hmin mkl l Hl). cbv zeta in HR. rewrite Hll, Htot in HR.
  set (W := sumN m (gap ts)) in *. set (S0 := sum_after n (Sparse mkl) (Some rtol) p (fun _ _ => 0%num) l) in *.
  assert (Hpi := proj1 HP i Hi). assert (Hpj := proj1 HP j Hj). assert (HWi := qinv_pos _ HTp).
  assert (Hc : (0 <= p i * p j * / W)%num) by (apply qmult_nonneg; [now apply qmult_nonneg|now apply Qclt_le_weak]).
  assert (HX : exists D s, (0 <= D - s)%num /\ (D - s <= qn m * ((rtol + rtol) * (W / pmin)))%num /\ (B - A)%num = (p i * p j * / W * (D - s))%num).
  { assert (HGS : forall a b, gram_sum n p l a b = gram_sum n p l b a) by (intros a b; unfold gram_sum; apply sumL_ext; intros x _; apply gram_sym).
    assert (HQ : forall a b, a < n -> b < n -> (0 <= part (Sparse mkl) (gram_sum n p l) a b - S0 a b)%num).
    { intros a b Ha Hb. destruct (HR a b Ha Hb) as (_ & H2 & _). revert H2. generalize (part (Sparse mkl) (gram_sum n p l) a b) (S0 a b). clear. qlra. }
    rewrite HA, HB. unfold minus_outer, finish, weighted. destruct mkl.
    - unfold part, upper in HR, HQ. destruct (Nat.eqb_spec i j) as [<-|N].
      + exists (gram_sum n p l i i), (S0 i i). specialize (HR i i Hi Hi). specialize (HQ i i Hi Hi). rewrite Nat.leb_refl in HR, HQ. split; [exact HQ|]. split; [apply HR|]. unfold Qcdiv. ring.
      + assert (HZ : forall a b, a < n -> b < n -> b < a -> S0 a b = 0%num).
        { intros a b Ha Hb L. destruct (HR a b Ha Hb) as (H1 & H2 & _). destruct (Nat.leb_spec a b); [lia|]. now apply Qcle_antisym. }
        destruct (Nat.lt_ge_cases i j) as [L|L].
        * exists (gram_sum n p l i j), (S0 i j). specialize (HR i j Hi Hj). specialize (HQ i j Hi Hj). destruct (Nat.leb_spec i j); [|lia]. split; [exact HQ|]. split; [apply HR|]. rewrite (HZ j i Hj Hi L). unfold Qcdiv. ring.
        * exists (gram_sum n p l j i), (S0 j i). specialize (HR j i Hj Hi). specialize (HQ j i Hj Hi). destruct (Nat.leb_spec j i); [|lia]. split; [exact HQ|]. split; [apply HR|]. rewrite (HZ i j Hi Hj ltac:(lia)), (HGS i j). unfold Qcdiv. ring.
    - exists (gram_sum n p l i j), (S0 i j). specialize (HR i j Hi Hj). specialize (HQ i j Hi Hj). unfold part in HR, HQ. split; [exact HQ|]. split; [apply HR|]. unfold Qcdiv. ring. }
  destruct HX as (D & s & H1 & H2 & ->). split; [now apply qmult_nonneg|].
  replace (qn m * ((rtol + rtol) * (p i * p j / pmin)))%num with (p i * p j * / W * (qn m * ((rtol + rtol) * (W / pmin))))%num by (field; split; [now apply qneq_pos|now apply qneq_pos]).
  revert H1 H2 Hc. generalize (D - s)%num (p i * p j * / W)%num (qn m * ((rtol + rtol) * (W / pmin)))%num. clear. intros x c y H1 H2 Hc.
  assert (H3 : (0 <= c * (y - x))%num) by (apply qmult_nonneg; [exact Hc|revert H2; clear; qlra]). replace (c * y)%num with (c * x + c * (y - x))%num by ring. revert H3. generalize (c * x)%num (c * (y - x))%num. clear. qlra.
Qed.
(** rounding keeps the symmetry *)
Lemma zeroed_sym n rtol A : symmetric n A -> symmetric n (zeroed_abs n rtol A).
Proof. intros H i j Hi Hj. unfold zeroed_abs. destruct rtol; now rewrite (H i j Hi Hj). Qed.
Lemma sum_after_sym n kd rtol p l : kd <> Sparse true -> forall A, symmetric n A -> symmetric n (sum_after n kd rtol p A l).
Proof.
  intros Hk. induction l as [|x l IH]; intros A HA; [exact HA|]. apply IH. intros i j Hi Hj. unfold add_step, mplus.
  destruct kd as [|[|]]; [|congruence|].
  - rewrite (HA i j Hi Hj), (gram_sym n p (fst x) (snd x) i j). reflexivity.
  - rewrite (zeroed_sym n rtol A HA i j Hi Hj). f_equal. apply zeroed_sym; try assumption. intros a b _ _. apply gram_sym.
Qed.
Lemma integral_at_sym n kd rtol p Ts ts m : symmetric n (integral_at n kd rtol p Ts ts m).
Proof.
  intros i j Hi Hj. unfold integral_at, minus_outer. f_equal; [|ring]. destruct kd as [|[|]]; unfold finish, weighted.
  - rewrite (sum_after_sym n Dense rtol p _ ltac:(discriminate) (fun _ _ => 0%num) ltac:(intros a b _ _; reflexivity) i j Hi Hj). ring.
  - destruct (Nat.eqb_spec i j) as [->|N]; [rewrite Nat.eqb_refl; reflexivity|]. destruct (Nat.eqb_spec j i); [congruence|]. ring.
  - rewrite (sum_after_sym n (Sparse false) rtol p _ ltac:(discriminate) (fun _ _ => 0%num) ltac:(intros a b _ _; reflexivity) i j Hi Hj). ring.
Qed.
