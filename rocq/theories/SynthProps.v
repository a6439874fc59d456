(** Properties C48, C49 and C90-C97: the simulation of synthetic networks. *)
From Verif Require Import Base SynthModel SynthSpec SynthProofs SynthRunProofs SynthEndProofs.
From Coq Require Import ZArith Permutation Sorted.

(** Populations for the examples: loc 0 and scale 1, so that delays are the variates themselves *)
Definition plain (i g : Z) : individual := {| i_ID := i; i_group := g; i_activ := fun _ => (0%num, 1%num); i_inter := fun _ => (0%num, 1%num) |}.
Definition pop_of (l : list (Z * Z)) (te : num) (m : method) : config :=
  {| c_inds := map (fun x => plain (fst x) (snd x)) l; c_start := 0%num; c_end := te; c_num := 1; c_method := m |}.
Definition stream (l : list num) (k : nat) : num := nth k l (qn 100).
Lemma stream_ok l : (forall x, In x l -> (0 <= x)%num) -> exponentials (stream l).
Proof. intros H k. unfold stream. destruct (nth_in_or_default k l (qn 100)) as [Hn|E]; [now apply H|rewrite E; apply qn_nonneg]. Qed.
Notation sample c l := (simulate c (stream l) (fun k : nat => k) true true (qn 1) 20 20).
Definition contacts (x : outcome state) : list (Z * Z * num * num) :=
  match x with Ok s => map (fun r => (source r, target r, start_time r, end_time r)) (s_rec s) | _ => [] end.
Lemma plain_delays l te m : delays_ok (pop_of l te m).
Proof. intros ind t H. cbn in H. apply in_map_iff in H. destruct H as (x & <- & _). cbn. split; apply Qcle_refl. Qed.
Lemma plain_scales l te m : scales_ok (pop_of l te m).
Proof. intros ind t H. cbn in H. apply in_map_iff in H. destruct H as (x & <- & _). cbn. split; reflexivity. Qed.
Ltac nonneg_list := let x := fresh in let H := fresh in intros x H; cbn in H; repeat (destruct H as [<-|H]; [vm_compute; discriminate|]); destruct H.
Ltac plain_ids := let x := fresh in let H := fresh in intros x H; cbn in H; repeat (destruct H as [<-|H]; [cbn; lia|]); destruct H.

(** * C48: what is recorded *)
Definition C48_statement : Prop := forall c exps chs sa sd dt fuel w s, delays_ok c -> exponentials exps -> simulate c exps chs sa sd dt fuel w = Ok s -> well_formed c (s_rec s).
(** IDs -1 and 0 are accepted for two individuals *)
Definition pop48 : config := pop_of [(-1, 0); (0, 0)]%Z (qn 4) Uniform.
Definition exps48 : list num := [qn 100; qn 1; qn 1; qn 3; qn 100; qn 1].
Theorem C48_negative_refuted : ~ C48_statement.
Proof.
  intros H. assert (E : contacts (sample pop48 exps48) = [((0, -1)%Z, qn 2, qn 3); ((0, -1)%Z, qn 0, qn 4)]) by (vm_compute; reflexivity).
  destruct (sample pop48 exps48) as [s| |] eqn:ES; [|discriminate E|discriminate E]. destruct (H _ _ _ _ _ _ _ _ s (plain_delays _ _ _) (stream_ok exps48 ltac:(nonneg_list)) ES) as (_ & _ & HO).
  cbn [contacts] in E. destruct (s_rec s) as [|r1 [|r2 [|]]] eqn:ER; cbn [map] in E; try discriminate E. injection E as E1 E2 E3 E4 E5 E6 E7 E8.
  assert (HX := HO 0 1 r1 r2 ltac:(lia) eq_refl eq_refl ltac:(congruence) ltac:(congruence)). rewrite E4, E7 in HX. vm_compute in HX. now apply HX.
Qed.
(** What holds: with IDs 0 to N-1, in any order *)
Theorem C48_well_formed_partial : forall c exps chs sa sd dt fuel w s, ids_ok c -> delays_ok c -> exponentials exps -> simulate c exps chs sa sd dt fuel w = Ok s -> well_formed c (s_rec s).
Proof.
  intros c exps chs sa sd dt fuel w s HI HD HE H. assert (HV := simulate_inv _ _ _ _ _ _ _ _ _ HI HD HE H). apply simulate_some in H. destruct H as (HC & _). assert (HR := ids_range c HC HI). destruct HV.
  split; [|split; assumption]. intros r Hr. destruct (v_rec r Hr) as (H1 & H2 & H3 & H4 & _). split; [now apply all_ids|]. split; [now apply all_ids|]. now split.
Qed.
Definition pop_ex : config := pop_of [(0, 0); (1, 0); (2, 1)]%Z (qn 5) Uniform.
Definition exps_ex : list num := [qn 1; qn 2; qn 3; qn 3; qn 2; qn 9; qn 2; qn 9; qf 1 2; qn 9; qf 1 2].
Example C48_applies : ids_ok pop_ex /\ delays_ok pop_ex /\ exponentials (stream exps_ex) /\
  contacts (sample pop_ex exps_ex) = [((0, 1)%Z, qn 1, qn 3); ((2, 0)%Z, qn 3, qf 7 2); ((1, 2)%Z, qn 2, qn 4); ((0, 1)%Z, qn 4, qf 9 2)].
Proof. split; [plain_ids|]. split; [apply plain_delays|]. split; [apply stream_ok; nonneg_list|]. vm_compute. reflexivity. Qed.

(** * C49: the end of the simulation *)
Definition C49_statement : Prop := forall c exps chs sa sd dt fuel w s, ids_ok c -> delays_ok c -> exponentials exps -> simulate c exps chs sa sd dt fuel w = Ok s -> forall r, In r (s_rec s) -> (end_time r <= c_end c)%num.
Theorem C49_overshoot_refuted : ~ C49_statement.
Proof.
  intros H. set (c := pop_of [(0, 0); (1, 0)]%Z (qn 2) Uniform). set (l := [qn 1; qn 100; qn 100; qn 50]).
  assert (E : contacts (sample c l) = [((0, 1)%Z, qn 1, qn 51)]) by (vm_compute; reflexivity).
  destruct (sample c l) as [s| |] eqn:ES; [|discriminate E|discriminate E]. assert (HX := H c (stream l) _ _ _ _ _ _ s ltac:(plain_ids) (plain_delays _ _ _) (stream_ok l ltac:(nonneg_list)) ES).
  cbn [contacts] in E. destruct (s_rec s) as [|r1 [|]] eqn:ER; cbn [map] in E; try discriminate E. injection E as E1 E2 E3 E4. specialize (HX r1 (or_introl eq_refl)). rewrite E4 in HX. vm_compute in HX. now apply HX.
Qed.
(** What holds: all but the last one *)
Theorem C49_all_but_last_partial : forall c exps chs sa sd dt fuel w s, ids_ok c -> delays_ok c -> exponentials exps -> simulate c exps chs sa sd dt fuel w = Ok s ->
  forall k r, nth_error (s_rec s) k = Some r -> S k < length (s_rec s) -> (end_time r < c_end c)%num.
Proof.
  intros c exps chs sa sd dt fuel w s HI HD HE H k r Hk HL. apply simulate_some in H. destruct H as (HC & s0 & H0 & H). assert (HR := ids_range c HC HI). apply (started_inv c exps HR HD HE) in H0. destruct H0 as (HV & R0 & _).
  destruct (advance_last c exps chs sa sd dt w HR HD HE fuel s0 s HV) as (l1 & l2 & E & L2 & Hl); [rewrite R0; intros x []|exact H|]. apply Hl. rewrite E in Hk, HL. rewrite app_length in HL. rewrite nth_error_app1 in Hk by lia. now apply nth_error_In in Hk.
Qed.

(** * C90: nothing is missing
    A longer simulation with the same random numbers adds only contacts that end at or after the
    end of the shorter one. *)
Theorem C90_prefix : forall c exps chs sa sd dt w a b f1 f2 s1 s2, ids_ok c -> delays_ok c -> exponentials exps -> (a <= b)%num ->
  simulate (until c a) exps chs sa sd dt f1 w = Ok s1 -> simulate (until c b) exps chs sa sd dt f2 w = Ok s2 ->
  exists l, s_rec s2 = s_rec s1 ++ l /\ forall r, In r l -> (a <= end_time r)%num.
Proof.
  intros c exps chs sa sd dt w a b f1 f2 s1 s2 HI HD HE Hab H1 H2. apply simulate_some in H1. apply simulate_some in H2. destruct H1 as (HC & s0 & H0 & H1). destruct H2 as (_ & s0' & H0' & H2).
  assert (HR : ids_rng c) by exact (ids_range (until c a) HC HI). assert (E : s0' = s0) by (change (started (until c b)) with (started c) in H0'; change (started (until c a)) with (started c) in H0; congruence). subst s0'.
  change (started (until c a)) with (started c) in H0. apply (started_inv c exps HR HD HE) in H0. destruct H0 as (HV & _). exact (advance_until c exps chs sa sd dt w a b HR HD HE Hab f1 f2 s0 s1 s2 HV H1 H2).
Qed.
Example C90_applies : length (contacts (sample (until pop_ex (qn 3)) exps_ex)) = 1 /\ length (contacts (sample (until pop_ex (qn 5)) exps_ex)) = 4.
Proof. vm_compute. split; reflexivity. Qed.

(** * C91: contacts of two individuals in either direction *)
Definition same_pair (r r' : contact) : Prop := (source r = source r' /\ target r = target r') \/ (source r = target r' /\ target r = source r').
Definition C91_statement : Prop := forall c exps chs sa sd dt fuel w s, ids_ok c -> delays_ok c -> exponentials exps -> simulate c exps chs sa sd dt fuel w = Ok s ->
  forall a b r r', a < b -> nth_error (s_rec s) a = Some r -> nth_error (s_rec s) b = Some r' -> same_pair r r' -> (end_time r <= start_time r')%num.
Theorem C91_both_directions_refuted : ~ C91_statement.
Proof.
  intros H. set (c := pop_of [(0, 0); (1, 0)]%Z (qn 4) Uniform). set (l := [qn 1; qn 2; qn 100; qn 3; qn 100; qn 1]).
  assert (E : contacts (sample c l) = [((1, 0)%Z, qn 2, qn 3); ((0, 1)%Z, qn 1, qn 4)]) by (vm_compute; reflexivity).
  destruct (sample c l) as [s| |] eqn:ES; [|discriminate E|discriminate E]. assert (HX := H c (stream l) _ _ _ _ _ _ s ltac:(plain_ids) (plain_delays _ _ _) (stream_ok l ltac:(nonneg_list)) ES).
  cbn [contacts] in E. destruct (s_rec s) as [|r1 [|r2 [|]]] eqn:ER; cbn [map] in E; try discriminate E. injection E as E1 E2 E3 E4 E5 E6 E7 E8.
  assert (HB := HX 0 1 r1 r2 ltac:(lia) eq_refl eq_refl). rewrite E4, E7 in HB. assert (HB' : (qn 3 <= qn 1)%num) by (apply HB; right; split; congruence). vm_compute in HB'. now apply HB'.
Qed.
(** What holds: overlapping contacts of a pair have opposite directions *)
Theorem C91_opposite_partial : forall c exps chs sa sd dt fuel w s, ids_ok c -> delays_ok c -> exponentials exps -> simulate c exps chs sa sd dt fuel w = Ok s ->
  forall a b r r', a < b -> nth_error (s_rec s) a = Some r -> nth_error (s_rec s) b = Some r' -> same_pair r r' -> (end_time r <= start_time r')%num \/ (source r = target r' /\ target r = source r').
Proof.
  intros c exps chs sa sd dt fuel w s HI HD HE H a b r r' Hab Ha Hb [[H1 H2]|H1]; [|now right]. left. destruct (C48_well_formed_partial c exps chs sa sd dt fuel w s HI HD HE H) as (_ & _ & HO). exact (HO a b r r' Hab Ha Hb H1 H2).
Qed.

(** * C92: running again *)
Definition C92_statement : Prop := forall c exps chs sa sd dt f1 f2 w s1 s2, ids_ok c -> delays_ok c -> exponentials exps ->
  simulate c exps chs sa sd dt f1 w = Ok s1 -> run c exps chs sa sd dt f2 w s1 = Ok s2 -> well_formed c (s_rec s2).
Theorem C92_second_run_refuted : ~ C92_statement.
Proof.
  intros H. set (c := pop_of [(0, 0); (1, 0)]%Z (qn 3) Uniform). set (l := [qn 1; qn 100; qn 100; qn 2; qn 1; qn 100; qn 100; qf 1 2; qn 100]).
  set (again := match sample c l with Ok s1 => run c (stream l) (fun k => k) true true (qn 1) 20 20 s1 | x => x end).
  assert (E : match contacts again with [(_, e1); (_, e2)] => qltb e2 e1 | _ => false end = true) by (vm_compute; reflexivity).
  unfold again in E. destruct (sample c l) as [s1| |] eqn:E1; [|discriminate E|discriminate E]. destruct (run c (stream l) (fun k => k) true true (qn 1) 20 20 s1) as [s2| |] eqn:E2; [|discriminate E|discriminate E].
  destruct (H c (stream l) _ _ _ _ _ _ _ s1 s2 ltac:(plain_ids) (plain_delays _ _ _) (stream_ok l ltac:(nonneg_list)) E1 E2) as (_ & HO & _).
  cbn [contacts] in E. destruct (s_rec s2) as [|r1 [|r2 [|]]]; cbn [map] in E; try discriminate E. assert (HX := HO 0 1 r1 r2 ltac:(lia) eq_refl eq_refl). destruct (qltb_spec (end_time r2) (end_time r1)) as [HL|]; [|discriminate E]. now apply (Qclt_not_le _ _ HL).
Qed.
(** What holds: nothing recorded is lost *)
Lemma treat_extends c exps chs sa sd dt w s e q s' : treat c exps chs sa sd dt w s e q = Ok s' -> exists l, s_rec s' = s_rec s ++ l.
Proof.
  unfold treat. cbv zeta. assert (HS : forall s1, s_rec (save sa sd dt (s_t s) s1) = s_rec s1) by (intros s1; unfold save; destruct (qltb _ _); [|reflexivity]; cbv zeta; destruct (_ && _); reflexivity).
  assert (HPA : forall s1 i s2, put_activation c exps s1 i = Ok s2 -> s_rec s2 = s_rec s1).
  { intros s1 i s2. unfold put_activation. destruct (wrap _ _); [|discriminate]. destruct (nth_error _ _); [|discriminate]. destruct (draw _ _ _); cbn; try discriminate. intros E. now injection E as <-. }
  assert (HPI : forall s1 i p s2, put_interaction c exps s1 i p = Ok s2 -> s_rec s2 = s_rec s1).
  { intros s1 i p s2. unfold put_interaction. destruct (wrap _ _); [|discriminate]. destruct (nth_error _ _); [|discriminate]. destruct (draw _ _ _); cbn; try discriminate. intros E. now injection E as <-. }
  assert (HPU : forall stop s1 pot un r s2, pick_unless chs stop w s1 pot un = Ok (r, s2) -> s_rec s2 = s_rec s1).
  { intros stop s1 pot un r s2 E. apply pick_unless_spec in E. destruct E as [(nc & ->) _]. reflexivity. }
  assert (HN : forall s1 i r s2, new_partner c chs w s1 i = Ok (r, s2) -> s_rec s2 = s_rec s1).
  { intros s1 i r s2. unfold new_partner. destruct (wrap _ _) as [k|]; [|discriminate]. cbv zeta. destruct (c_method c) as [| |P|f|]; [apply HPU|destruct (group_to_ids _ _); [discriminate|apply HPU]| | |discriminate]; (destruct (row_at _ _) as [row|]; [|discriminate]); intros E; apply pick_block_spec in E; destruct E as [(nc & ->) _]; reflexivity. }
  destruct e as [t i|t i p].
  - unfold activate. destruct (put_activation c exps (with_time s (ev_time (Act t i)) q) i) as [s1| |] eqn:E1; cbn [bind]; try discriminate. apply HPA in E1.
    assert (HT : forall m s2 s3, interact_times c exps chs m w s2 i = Ok s3 -> s_rec s3 = s_rec s2).
    { induction m as [|m IH]; intros s2 s3 E; cbn [interact_times] in E; [now injection E as <-|]. destruct (interact c exps chs w s2 i) as [s4| |] eqn:E4; cbn [bind] in E; try discriminate. rewrite (IH _ _ E). unfold interact in E4.
      destruct (new_partner c chs w s2 i) as [[r s5]| |] eqn:E5; cbn [bind fst snd] in E4; try discriminate. apply HN in E5. destruct r as [p|]; [|injection E4 as <-; exact E5]. destruct (wrap (size c) i), (wrap (size c) p); try discriminate. apply HPI in E4. rewrite E4. exact E5. }
    destruct (interact_times _ _ _ _ _ _ _) as [s2| |] eqn:E2; cbn [bind]; try discriminate. intros E. injection E as <-. exists []. rewrite HS, (HT _ _ _ E2), E1, app_nil_r. reflexivity.
  - unfold finish. destruct (wrap (size c) i), (wrap (size c) p); cbn [bind]; try discriminate. intros E. injection E as <-. rewrite HS. eexists. reflexivity.
Qed.
Theorem C92_kept_partial : forall c exps chs sa sd dt fuel w s s', run c exps chs sa sd dt fuel w s = Ok s' -> exists l, s_rec s' = s_rec s ++ l.
Proof.
  intros c exps chs sa sd dt fuel w s s' H. unfold run in H. cbv zeta in H.
  assert (HT : forall l s1 s2, initialize c exps l s1 = Ok s2 -> s_rec s2 = s_rec s1).
  { induction l as [|i l IH]; intros s1 s2 E; cbn [initialize] in E; [now injection E as <-|]. destruct (put_activation c exps s1 i) as [s3| |] eqn:E3; cbn [bind] in E; try discriminate. rewrite (IH _ _ E). unfold put_activation in E3.
    destruct (wrap _ _); [|discriminate]. destruct (nth_error _ _); [|discriminate]. destruct (draw _ _ _); cbn in E3; try discriminate. now injection E3 as <-. }
  destruct (initialize _ _ _ _) as [s1| |] eqn:E1; cbn [bind] in H; try discriminate. apply HT in E1. cbn in E1. rewrite <- E1. clear E1 HT. change (s_rec s1) with (s_rec (with_saved s1 (if sa then [(s_t s1, s_A s1)] else s_all s1) (if sd then [(s_t s1, s_A s1)] else s_saved s1) (s_bin s1))).
  revert H. generalize (with_saved s1 (if sa then [(s_t s1, s_A s1)] else s_all s1) (if sd then [(s_t s1, s_A s1)] else s_saved s1) (s_bin s1)). clear s1. induction fuel as [|f IH]; intros s1 H; [discriminate|]. cbn [advance] in H.
  assert (Hid : exists l, s_rec s1 = s_rec s1 ++ l) by (exists []; now rewrite app_nil_r). destruct (qltb _ _); [|injection H as <-; exact Hid]. destruct (pop _) as [[e q]|]; [|injection H as <-; exact Hid].
  destruct (treat _ _ _ _ _ _ _ _ _ _) as [s2| |] eqn:E2; cbn [bind] in H; try discriminate. apply treat_extends in E2. destruct E2 as (l & El). destruct (IH s2 H) as (l' & El'). exists (l ++ l'). now rewrite El', El, app_assoc.
Qed.
(** and the second run still treats what the first one left in the queue: contacts that were under way
    are recorded in it *)
Lemma treat_queue c exps chs sa sd dt w s e q s' x : treat c exps chs sa sd dt w s e q = Ok s' -> In x q -> In x (s_q s') /\ s_t s' = ev_time e.
Proof.
  unfold treat. cbv zeta. intros H Hx.
  assert (HS : forall s1, s_t (save sa sd dt (s_t s) s1) = s_t s1) by (intros s1; unfold save; destruct (qltb _ _); [|reflexivity]; cbv zeta; destruct (_ && _); reflexivity).
  set (keeps := fun s1 s2 : state => s_t s2 = s_t s1 /\ (In x (s_q s1) -> In x (s_q s2))).
  assert (HPA : forall s1 i s2, put_activation c exps s1 i = Ok s2 -> keeps s1 s2).
  { intros s1 i s2. unfold put_activation. destruct (wrap _ _); [|discriminate]. destruct (nth_error _ _); [|discriminate]. destruct (draw _ _ _); cbn; try discriminate. intros E. injection E as <-. split; [reflexivity|]. intros K. now right. }
  assert (HPI : forall s1 i p s2, put_interaction c exps s1 i p = Ok s2 -> keeps s1 s2).
  { intros s1 i p s2. unfold put_interaction. destruct (wrap _ _); [|discriminate]. destruct (nth_error _ _); [|discriminate]. destruct (draw _ _ _); cbn; try discriminate. intros E. injection E as <-. split; [reflexivity|]. intros K. now right. }
  assert (HN : forall s1 i r s2, new_partner c chs w s1 i = Ok (r, s2) -> keeps s1 s2).
  { intros s1 i r s2. unfold new_partner. destruct (wrap _ _) as [k|]; [|discriminate]. cbv zeta.
    assert (HPU : forall stop pot un, pick_unless chs stop w s1 pot un = Ok (r, s2) -> keeps s1 s2).
    { intros stop pot un E. apply pick_unless_spec in E. destruct E as [(nc & ->) _]. split; [reflexivity|]. intros K. exact K. }
    destruct (c_method c) as [| |P|f|]; [apply HPU|destruct (group_to_ids _ _); [discriminate|apply HPU]| | |discriminate]; (destruct (row_at _ _) as [row|]; [|discriminate]); intros E; apply pick_block_spec in E; destruct E as [(nc & ->) _]; (split; [reflexivity|]; intros K; exact K). }
  destruct e as [t i|t i p].
  - unfold activate in H. destruct (put_activation c exps (with_time s (ev_time (Act t i)) q) i) as [s1| |] eqn:E1; cbn [bind] in H; try discriminate. apply HPA in E1.
    assert (HT : forall m s2 s3, interact_times c exps chs m w s2 i = Ok s3 -> keeps s2 s3).
    { induction m as [|m IH]; intros s2 s3 E; cbn [interact_times] in E; [injection E as <-; split; [reflexivity|]; intros K; exact K|]. destruct (interact c exps chs w s2 i) as [s4| |] eqn:E4; cbn [bind] in E; try discriminate.
      assert (K4 : keeps s2 s4).
      { unfold interact in E4. destruct (new_partner c chs w s2 i) as [[r s5]| |] eqn:E5; cbn [bind fst snd] in E4; try discriminate. apply HN in E5. destruct r as [p|]; [|injection E4 as <-; exact E5].
        destruct (wrap (size c) i), (wrap (size c) p); try discriminate. apply HPI in E4. destruct E4 as [A1 A2], E5 as [B1 B2]. cbn in A1, A2. split; [congruence|]. intros K. now apply A2, B2. }
      destruct (IH _ _ E) as [A1 A2], K4 as [B1 B2]. split; [congruence|]. intros K. now apply A2, B2. }
    destruct (interact_times _ _ _ _ _ _ _) as [s2| |] eqn:E2; cbn [bind] in H; try discriminate. injection H as <-. apply HT in E2. destruct E1 as [A1 A2], E2 as [B1 B2]. rewrite save_queue, HS. split; [apply B2, A2; exact Hx|]. now rewrite B1, A1.
  - unfold finish in H. destruct (wrap (size c) i), (wrap (size c) p); cbn [bind] in H; try discriminate. injection H as <-. rewrite save_queue, HS. split; [exact Hx|reflexivity].
Qed.
Theorem C92_under_way_partial : forall c exps chs sa sd dt fuel w s s' t i p, (c_start c < c_end c)%num -> (t < c_end c)%num -> In (Int t i p) (s_q s) ->
  run c exps chs sa sd dt fuel w s = Ok s' -> exists r l l', s_rec s' = s_rec s ++ l ++ r :: l' /\ source r = i /\ target r = p /\ end_time r = t.
Proof.
  intros c exps chs sa sd dt fuel w s s' t i p Hc Ht Hin H. unfold run in H. cbv zeta in H.
  assert (HT : forall l s1 s2, initialize c exps l s1 = Ok s2 -> s_rec s2 = s_rec s1 /\ s_t s2 = s_t s1 /\ (In (Int t i p) (s_q s1) -> In (Int t i p) (s_q s2))).
  { induction l as [|i0 l IH]; intros s1 s2 E; cbn [initialize] in E; [injection E as <-; auto|]. destruct (put_activation c exps s1 i0) as [s3| |] eqn:E3; cbn [bind] in E; try discriminate. destruct (IH _ _ E) as (A1 & A2 & A3). unfold put_activation in E3.
    destruct (wrap _ _); [|discriminate]. destruct (nth_error _ _); [|discriminate]. destruct (draw _ _ _); cbn in E3; try discriminate. injection E3 as <-. cbn in A1, A2, A3. split; [exact A1|]. split; [exact A2|]. intros K. apply A3. now right. }
  destruct (initialize _ _ _ _) as [s1| |] eqn:E1; cbn [bind] in H; try discriminate. apply HT in E1. cbn in E1. destruct E1 as (A1 & A2 & A3). specialize (A3 Hin). rewrite <- A1. assert (Hlt : (s_t s1 < c_end c)%num) by now rewrite A2.
  set (s2 := with_saved s1 _ _ _) in H. change (s_rec s1) with (s_rec s2). change (s_t s1) with (s_t s2) in Hlt. change (s_q s1) with (s_q s2) in A3. clearbody s2. clear s s1 A1 A2 Hin HT. revert s2 Hlt A3 H.
  induction fuel as [|f IH]; intros s2 Hlt Hq H; [discriminate|]. cbn [advance] in H. destruct (qltb_spec (s_t s2) (c_end c)) as [_|K]; [|contradiction].
  destruct (pop (s_q s2)) as [[e q]|] eqn:Ep; [|apply pop_none in Ep; rewrite Ep in Hq; destruct Hq].
  destruct (treat _ _ _ _ _ _ _ _ _ _) as [s3| |] eqn:E3; cbn [bind] in H; try discriminate.
  assert (HL := pop_least _ _ _ Ep _ Hq). cbn [ev_time] in HL. apply pop_perm in Ep. assert (Hq' := Permutation_in _ Ep Hq). destruct Hq' as [-> | Hq'].
  - unfold treat in E3. cbv zeta in E3. unfold finish in E3. destruct (wrap (size c) i), (wrap (size c) p); cbn [bind] in E3; try discriminate. injection E3 as <-.
    assert (HA : forall f s4 s5, advance c exps chs sa sd dt f w s4 = Ok s5 -> exists l, s_rec s5 = s_rec s4 ++ l).
    { clear. induction f as [|f IH]; intros s4 s5 H; [discriminate|]. cbn [advance] in H. assert (Hid : exists l, s_rec s4 = s_rec s4 ++ l) by (exists []; now rewrite app_nil_r). destruct (qltb _ _); [|injection H as <-; exact Hid]. destruct (pop _) as [[e q]|]; [|injection H as <-; exact Hid].
      destruct (treat _ _ _ _ _ _ _ _ _ _) as [s2| |] eqn:E2; cbn [bind] in H; try discriminate. apply treat_extends in E2. destruct E2 as (l & El). destruct (IH s2 s5 H) as (l' & El'). exists (l ++ l'). now rewrite El', El, app_assoc. }
    apply HA in H. destruct H as (l & Hl). eexists _, [], l. split; [rewrite Hl; unfold save; cbv zeta; destruct (qltb _ _); [destruct (_ && _)|]; cbn [s_rec with_saved with_contact]; rewrite <- app_assoc; reflexivity|]. repeat split.
  - destruct (treat_queue _ _ _ _ _ _ _ _ _ _ _ _ E3 Hq') as [B1 B2]. assert (Hlt' : (s_t s3 < c_end c)%num) by (rewrite B2; eapply Qcle_lt_trans; [exact HL|exact Ht]).
    destruct (IH s3 Hlt' B1 H) as (r & l & l' & E & K). apply treat_extends in E3. destruct E3 as (l0 & E0). exists r, (l0 ++ l), l'. split; [|exact K]. rewrite E, E0, <- !app_assoc. reflexivity.
Qed.
Example C92_under_way_applies : match sample (pop_of [(0, 0); (1, 0)]%Z (qf 1 2) Uniform) [qn 1; qn 100; qn 100; qn 2] with
  | Ok s => existsb (fun e => match e with Int t _ _ => qltb t (qn 4) | _ => false end) (s_q s) | _ => false end = true.
Proof. vm_compute. reflexivity. Qed.

(** * C93: groups *)
Definition C93_statement : Prop := forall c exps chs sa sd dt fuel w s, ids_ok c -> groups_ok c -> delays_ok c -> exponentials exps -> weights_ok c ->
  simulate c exps chs sa sd dt fuel w = Ok s -> forall r, In r (s_rec s) -> respects_groups c r.
(** individuals with IDs 0, 2, 1 and 3 in groups 0, 0, 1 and 1 *)
Definition pop93 : config := pop_of [(0, 0); (2, 0); (1, 1); (3, 1)]%Z (qn 4) WithinGroup.
Theorem C93_order_of_individuals_refuted : ~ C93_statement.
Proof.
  intros H. set (l := [qn 1; qn 100; qn 100; qn 100; qn 100; qn 2]). assert (E : contacts (sample pop93 l) = [((0, 1)%Z, qn 1, qn 3)]) by (vm_compute; reflexivity).
  destruct (sample pop93 l) as [s| |] eqn:ES; [|discriminate E|discriminate E].
  assert (HX := H pop93 (stream l) _ _ _ _ _ _ s ltac:(plain_ids) ltac:(plain_ids) (plain_delays _ _ _) (stream_ok l ltac:(nonneg_list)) I ES).
  cbn [contacts] in E. destruct (s_rec s) as [|r1 l']; cbn [map] in E; [discriminate E|]. injection E as E1 E2 _ _ _. destruct (HX r1 (or_introl eq_refl)) as (g & h & (i1 & Hi1 & Ei1 & Eg) & (i2 & Hi2 & Ei2 & Eh) & Hgh). cbn in Hgh. rewrite E1 in Ei1. rewrite E2 in Ei2.
  cbn in Hi1, Hi2. destruct Hi1 as [<-|[<-|[<-|[<-|[]]]]]; cbn in Ei1; try discriminate Ei1. destruct Hi2 as [<-|[<-|[<-|[<-|[]]]]]; cbn in Ei2; try discriminate Ei2. cbn in Eg, Eh. congruence.
Qed.
(** What holds: individuals listed in the order of their IDs *)
Theorem C93_in_order_partial : forall c exps chs sa sd dt fuel w s, ids_in_order c -> groups_ok c -> delays_ok c -> exponentials exps -> (forall P, c_method c = Block P -> nonneg_rows P) ->
  simulate c exps chs sa sd dt fuel w = Ok s -> forall r, In r (s_rec s) -> respects_groups c r.
Proof.
  intros c exps chs sa sd dt fuel w s HI HG HD HE HP H r Hr. assert (HI' : ids_ok c) by (intros ind Hin; destruct (In_nth_error _ _ Hin) as (k & Hk); rewrite (HI k ind Hk); lia).
  assert (HV := simulate_inv _ _ _ _ _ _ _ _ _ HI' HD HE H). apply simulate_some in H. destruct H as (HC & _). destruct (v_rec c s HV r Hr) as (H1 & H2 & _ & _ & _ & HCh & _).
  assert (Hat : forall z, rng (size c) z -> group_of c z (group_at c (Z.to_nat z)) /\ (0 <= group_at c (Z.to_nat z))%Z).
  { intros z Hz. destruct (ind_at c z Hz) as (ind & Hn & Hin). destruct (rng_nat _ _ Hz) as [Ez _]. assert (Eg : group_at c (Z.to_nat z) = i_group ind).
    { unfold group_at, groups. apply nth_error_nth. rewrite nth_error_map, Hn. reflexivity. }
    rewrite Eg. split; [|now apply HG]. exists ind. split; [exact Hin|]. split; [rewrite (HI _ _ Hn); exact Ez|reflexivity]. }
  destruct (Hat _ H1) as [HG1 HP1]. destruct (Hat _ H2) as [HG2 HP2]. set (g := group_at c (Z.to_nat (source r))) in *. set (h := group_at c (Z.to_nat (target r))) in *. exists g, h. split; [exact HG1|]. split; [exact HG2|].
  unfold chosen in HCh. fold g h in HCh. cbv zeta in HCh. assert (HRow : forall A (P : list A) row, row_at P g = Some row -> nth_error P (Z.to_nat g) = Some row).
  { intros A P row. unfold row_at, wrap. destruct (Z.leb_spec 0 g); [|lia]. destruct (Z.ltb_spec g (Z.of_nat (length P))); cbn; [auto|]. destruct (Z.ltb_spec g 0); [lia|]. rewrite andb_false_r. discriminate. }
  destruct (c_method c) as [| |P|f|] eqn:EM; try exact HCh.
  - destruct HCh as (row & b & Er & Hb & Eh). apply HRow in Er. unfold normalized in Er. rewrite nth_error_map in Er. destruct (nth_error P (Z.to_nat g)) as [rw|] eqn:EP; [|discriminate]. cbn in Er. destruct (qeqb_spec (total rw) 0%num) as [|Hne]; [discriminate|]. injection Er as <-.
    unfold prob. rewrite (nth_error_nth _ _ [] EP), Eh, Nat2Z.id. assert (HNr : forall x, In x rw -> (0 <= x)%num) by (intros x Hx; exact (HP P eq_refl rw x (nth_error_In _ _ EP) Hx)).
    destruct (Nat.lt_ge_cases b (length rw)) as [Lb|Lb]; [|rewrite nth_overflow in Hb by (now rewrite map_length); discriminate].
    assert (Hnb := HNr _ (nth_In rw 0%num Lb)). destruct (qle_lt_or_eq _ _ Hnb) as [Hpos|E0]; [exact Hpos|]. exfalso. rewrite (nth_indep _ 0%num (0 / total rw)%num) in Hb by (now rewrite map_length). rewrite (map_nth (fun x => (x / total rw)%num)), <- E0 in Hb.
    replace (0 / total rw)%num with 0%num in Hb by (unfold Qcdiv; ring). discriminate.
  - destruct HCh as (row & b & Er & Hb & Eh). apply HRow in Er. unfold prob. rewrite (nth_error_nth _ _ [] Er), Eh, Nat2Z.id. exact Hb.
Qed.
Example C93_applies : let c := pop_of [(0, 0); (1, 0); (2, 1); (3, 1)]%Z (qn 4) (Block [[qn 0; qn 3]; [qn 1; qn 1]]) in
  ids_in_order c /\ groups_ok c /\ delays_ok c /\ contacts (sample c [qn 1; qn 100; qn 100; qn 100; qn 100; qn 2]) = [((0, 3)%Z, qn 1, qn 3)].
Proof.
  cbv zeta. split; [|split; [plain_ids|split; [apply plain_delays|vm_compute; reflexivity]]]. intros k ind Hk. destruct k as [|[|[|[|k]]]]; cbn in Hk; try (injection Hk as <-; reflexivity). destruct k; discriminate.
Qed.

(** * C94: exceptions *)
Definition C94_statement : Prop := forall c exps chs sa sd dt fuel w, create c = Ok fresh -> ids_ok c -> groups_ok c -> delays_ok c -> scales_ok c -> exponentials exps -> weights_ok c ->
  simulate c exps chs sa sd dt fuel w <> Raise.
(** a group without partners: 0/0 in the normalisation *)
Theorem C94_zero_row_refuted : ~ C94_statement.
Proof.
  intros H. set (c := pop_of [(0, 0); (1, 1)]%Z (qn 4) (Block [[qn 0; qn 0]; [qn 1; qn 1]])). set (l := [qn 1; qn 2; qn 100; qn 100]).
  assert (E : sample c l = Raise) by (vm_compute; reflexivity). revert E. apply H; [vm_compute; reflexivity|plain_ids|plain_ids|apply plain_delays|apply plain_scales|apply stream_ok; nonneg_list|].
  split; [split; [reflexivity|intros row [<-|[<-|[]]]; reflexivity]|]. intros row x [<-|[<-|[]]] Hx; cbn in Hx; repeat (destruct Hx as [<-|Hx]; [vm_compute; discriminate|]); destruct Hx.
Qed.
Theorem C94_positive_rows_partial : forall c exps chs sa sd dt fuel w, create c = Ok fresh -> ids_ok c -> groups_ok c -> delays_ok c -> scales_ok c -> exponentials exps -> weights_ok c -> rows_positive c ->
  simulate c exps chs sa sd dt fuel w <> Raise.
Proof. intros c exps chs sa sd dt fuel w HC HI HG HD HS HE HW HP. exact (simulate_safe c exps chs HC (ids_range c HC HI) HD HE HG HS HW HP sa sd dt fuel w). Qed.
Example C94_applies : let c := pop_of [(0, 0); (1, 1)]%Z (qn 4) (Block [[qn 0; qn 1]; [qn 1; qn 1]]) in create c = Ok fresh /\ ids_ok c /\ groups_ok c /\ delays_ok c /\ scales_ok c /\ weights_ok c /\ rows_positive c.
Proof.
  cbv zeta. split; [reflexivity|]. split; [plain_ids|]. split; [plain_ids|]. split; [apply plain_delays|]. split; [apply plain_scales|]. split.
  - split; [split; [reflexivity|intros row [<-|[<-|[]]]; reflexivity]|]. intros row x [<-|[<-|[]]] Hx; cbn in Hx; repeat (destruct Hx as [<-|Hx]; [vm_compute; discriminate|]); destruct Hx.
  - intros row [<-|[<-|[]]]; reflexivity.
Qed.

(** * C95: the simulation ends *)
Lemma archimedes (x : num) : exists K, (x <= qn K)%num.
Proof.
  exists (Z.to_nat (Z.abs (QArith_base.Qnum (this x)))). apply qc_le_this. rewrite this_qn. destruct (this x) as [a b]. unfold QArith_base.Qle, QArith_base.inject_Z. cbn [QArith_base.Qnum QArith_base.Qden]. rewrite Z2Nat.id by apply Z.abs_nonneg. nia.
Qed.
Theorem C95_ends : forall c exps chs delta sa sd dt, create c = Ok fresh -> ids_ok c -> delays_ok c -> exponentials exps -> (0 < delta)%num -> spaced c exps delta -> fair chs ->
  exists fuel w, simulate c exps chs sa sd dt fuel w <> Loop.
Proof.
  intros c exps chs delta sa sd dt HC HI HD HE Hd HS HF. destruct (archimedes ((c_end c - c_start c) / delta)%num) as (K & HK).
  apply (simulate_evt c exps chs HC (ids_range c HC HI) HD HE HF delta Hd HS K).
  assert (H := qmult_nonneg (qn K - (c_end c - c_start c) / delta)%num delta ltac:(revert HK; generalize (qn K) ((c_end c - c_start c) / delta)%num; clear; qlra) (Qclt_le_weak _ _ Hd)).
  replace ((qn K - (c_end c - c_start c) / delta) * delta)%num with (qn K * delta - (c_end c - c_start c))%num in H by (field; now apply qneq_pos). revert H. generalize (qn K * delta)%num (c_end c) (c_start c). clear. qlra.
Qed.
(** the stream 0, 1, 2, ... takes every residue again and again *)
Example C95_applies : spaced pop_ex (fun _ => qn 1) (qn 1) /\ fair (fun k => k).
Proof.
  split.
  - intros ind t k Hin. cbn in Hin. destruct Hin as [<-|[<-|[<-|[]]]]; cbn; vm_compute; discriminate.
  - intros k m r Hr. exists (r + k * m). split; [nia|]. rewrite Nat.mod_add by lia. now apply Nat.mod_small.
Qed.

(** * C96: states saved every dt *)
Definition C96_statement : Prop := forall c exps chs sa dt fuel w s, ids_ok c -> delays_ok c -> exponentials exps -> simulate c exps chs sa true dt fuel w = Ok s ->
  forall k x y, nth_error (s_saved s) k = Some x -> nth_error (s_saved s) (S k) = Some y -> (fst x + dt <= fst y)%num.
(** events at 10 and 10.5 with dt = 1: both states are saved *)
Theorem C96_catching_up_refuted : ~ C96_statement.
Proof.
  intros H. set (c := pop_of [(0, 0); (1, 0)]%Z (qn 11) Uniform). set (l := [qn 10; qf 21 2; qn 100; qn 100; qn 100; qn 100]).
  assert (E : match sample c l with Ok s => match s_saved s with x :: y :: z :: _ => Some (fst y, fst z) | _ => None end | _ => None end = Some (qn 10, qf 21 2)) by (vm_compute; reflexivity).
  destruct (sample c l) as [s| |] eqn:ES; [|discriminate E|discriminate E]. assert (HX := H c (stream l) _ _ _ _ _ s ltac:(plain_ids) (plain_delays _ _ _) (stream_ok l ltac:(nonneg_list)) ES).
  destruct (s_saved s) as [|x [|y [|z r]]]; try discriminate E. injection E as E1 E2. specialize (HX 1 y z eq_refl eq_refl). rewrite E1, E2 in HX. vm_compute in HX. now apply HX.
Qed.
(** What holds: every time is saved once, and the k-th state not before k dt have passed *)
Theorem C96_not_too_many_partial : forall c exps chs sa sd dt fuel w s, ids_ok c -> delays_ok c -> exponentials exps -> simulate c exps chs sa sd dt fuel w = Ok s ->
  StronglySorted Qclt (map fst (s_all s)) /\ StronglySorted Qclt (map fst (s_saved s)) /\ forall k x, nth_error (s_saved s) k = Some x -> (c_start c + qn k * dt <= fst x)%num.
Proof.
  intros c exps chs sa sd dt fuel w s HI HD HE H. apply simulate_some in H. destruct H as (HC & s0 & H0 & H). assert (HR := ids_range c HC HI). assert (HK := started_keys c exps sa sd dt s0 HD HE H0). apply (started_inv c exps HR HD HE) in H0. destruct H0 as (HV & _).
  destruct (advance_keys c exps chs sa sd dt w HR HD HE fuel s0 s HV HK H) as (H1 & H2 & H3 & _). auto.
Qed.

(** * C97: saved states against recorded contacts *)
(** the contact goes on at time t, from its start to before its end *)
Definition active (t : num) (r : contact) (a b : nat) : Prop := source r = Z.of_nat a /\ target r = Z.of_nat b /\ (start_time r <= t)%num /\ (t < end_time r)%num.
Definition C97_statement : Prop := forall c exps chs sd dt fuel w s t M r a b, ids_ok c -> delays_ok c -> exponentials exps -> simulate c exps chs true sd dt fuel w = Ok s ->
  In (t, M) (s_all s) -> In r (s_rec s) -> active t r a b -> M a b = true.
(** two activations at the same time: the state is saved after the first *)
Theorem C97_same_time_refuted : ~ C97_statement.
Proof.
  intros H. set (c := pop_of [(0, 0); (1, 0)]%Z (qn 5) Uniform). set (l := [qn 1; qn 1; qn 100; qn 3; qn 100; qn 3]).
  assert (E : match sample c l with Ok s => match s_all s, s_rec s with _ :: (t, M) :: _, [r1; r2] => Some (t, M 1 0, (source r2, target r2, start_time r2, end_time r2)) | _, _ => None end | _ => None end = Some (qn 1, false, ((1, 0)%Z, qn 1, qn 4))) by (vm_compute; reflexivity).
  destruct (sample c l) as [s| |] eqn:ES; [|discriminate E|discriminate E]. assert (HX := fun t M r a b => H c (stream l) _ _ _ _ _ s t M r a b ltac:(plain_ids) (plain_delays _ _ _) (stream_ok l ltac:(nonneg_list)) ES).
  destruct (s_all s) as [|x [|[t M] rest]]; try discriminate E. destruct (s_rec s) as [|r1 [|r2 [|]]]; try discriminate E. injection E as E0 E1 E2 E3 E4 E5.
  specialize (HX t M r2 1 0 (or_intror (or_introl eq_refl)) (or_intror (or_introl eq_refl))). unfold active in HX. rewrite E0, E2, E3, E4, E5 in HX. rewrite HX in E1; [discriminate|]. split; [reflexivity|]. split; [reflexivity|]. split; [vm_compute; discriminate|reflexivity].
Qed.
(** What holds, for both kinds of saved states: contacts under way are in the matrix, and the
    matrix contains no other than those, contacts starting or ending at that very time, and
    contacts still open at the end *)
Theorem C97_under_way_partial : forall c exps chs sa sd dt fuel w s t M, ids_ok c -> delays_ok c -> exponentials exps -> simulate c exps chs sa sd dt fuel w = Ok s ->
  In (t, M) (s_all s) \/ In (t, M) (s_saved s) ->
  (forall r a b, In r (s_rec s) -> active t r a b -> (start_time r < t)%num -> M a b = true) /\
  (forall a b, M a b = true -> (exists r, In r (s_rec s) /\ source r = Z.of_nat a /\ target r = Z.of_nat b /\ (start_time r <= t)%num /\ (t <= end_time r)%num) \/ (s_A s a b = true /\ (s_last s a b <= t)%num)).
Proof.
  intros c exps chs sa sd dt fuel w s t M HI HD HE H Hin. assert (HV := simulate_inv _ _ _ _ _ _ _ _ _ HI HD HE H). destruct (v_saved c s HV (t, M) Hin) as (_ & H2 & H3 & _). cbn [fst snd] in *. split; [|exact H3].
  intros r a b Hr (Es & Et & _ & He) Hs. specialize (H2 r Hr Hs He). now rewrite Es, Et, !Nat2Z.id in H2.
Qed.
Example C97_applies : match sample pop_ex exps_ex with Ok s => map fst (s_all s) | _ => [] end = [qn 0; qn 1; qn 2; qn 3; qf 7 2; qn 4; qf 9 2; qn 11].
Proof. vm_compute. reflexivity. Qed.

Print Assumptions C48_negative_refuted.
Print Assumptions C48_well_formed_partial.
Print Assumptions C49_overshoot_refuted.
Print Assumptions C49_all_but_last_partial.
Print Assumptions C90_prefix.
Print Assumptions C91_both_directions_refuted.
Print Assumptions C91_opposite_partial.
Print Assumptions C92_second_run_refuted.
Print Assumptions C92_kept_partial.
Print Assumptions C92_under_way_partial.
Print Assumptions C93_order_of_individuals_refuted.
Print Assumptions C93_in_order_partial.
Print Assumptions C94_zero_row_refuted.
Print Assumptions C94_positive_rows_partial.
Print Assumptions C95_ends.
Print Assumptions C96_catching_up_refuted.
Print Assumptions C96_not_too_many_partial.
Print Assumptions C97_same_time_refuted.
Print Assumptions C97_under_way_partial.
