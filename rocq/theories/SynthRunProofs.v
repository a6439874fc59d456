(** Lemmas for whole runs of the simulation: creation, stopping, exceptions, termination. *)
From Verif Require Import Base SynthModel SynthSpec SynthProofs.
From Coq Require Import ZArith Permutation Sorted.

(** * Creation *)
Lemma nodup_length {A} (dec : forall x y : A, {x = y} + {x <> y}) l : length (nodup dec l) = length l -> NoDup l.
Proof. intros H. apply (NoDup_incl_NoDup (l := nodup dec l)); [apply NoDup_nodup|lia|]. intros x Hx. now apply nodup_In in Hx. Qed.
Lemma create_some c s : create c = Ok s -> s = fresh /\ NoDup (ids c) /\ (forall z, In z (ids c) -> (z < Z.of_nat (size c))%Z) /\ (forall g, In g (groups c) -> (g < Z.of_nat (num_groups c))%Z).
Proof.
  unfold create. destruct (forallb (fun i => (i <? Z.of_nat (size c))%Z) (ids c)) eqn:E1; cbn [negb]; [|discriminate]. destruct (Nat.eqb_spec (length (nodup Z.eq_dec (ids c))) (size c)) as [E2|]; cbn [negb]; [|discriminate].
  destruct (forallb (fun g => (g <? Z.of_nat (num_groups c))%Z) (groups c)) eqn:E3; cbn [negb]; [|discriminate]. intros E.
  split; [destruct (c_method c) as [| |P|f|]; try (now injection E as <-); destruct (_ && _); [now injection E as <-|discriminate]|].
  split; [apply (nodup_length Z.eq_dec); unfold ids in *; rewrite E2, map_length; reflexivity|].
  split; intros z Hz; apply Z.ltb_lt; [exact (proj1 (forallb_forall _ _) E1 z Hz)|exact (proj1 (forallb_forall _ _) E3 z Hz)].
Qed.
Lemma ids_range c : create c = Ok fresh -> ids_ok c -> ids_rng c.
Proof.
  intros E H z Hz. destruct (create_some _ _ E) as (_ & _ & HL & _). split; [|now apply HL]. unfold ids in Hz. apply in_map_iff in Hz. destruct Hz as (ind & <- & Hi). now apply H.
Qed.
(** distinct integers 0 <= z < n, n of them: all *)
Lemma pigeonhole (l : list Z) : NoDup l -> (forall z, In z l -> rng (length l) z) -> forall z, rng (length l) z -> In z l.
Proof.
  intros HN HR z Hz. apply (NoDup_length_incl HN (l' := map Z.of_nat (seq 0 (length l)))).
  - now rewrite map_length, seq_length.
  - intros x Hx. destruct (rng_nat _ _ (HR x Hx)) as [H1 H2]. rewrite <- H1. apply in_map, in_seq. lia.
  - destruct (rng_nat _ _ Hz) as [H1 H2]. rewrite <- H1. apply in_map, in_seq. lia.
Qed.
Lemma all_ids c : create c = Ok fresh -> ids_rng c -> forall z, rng (size c) z -> In z (ids c).
Proof.
  intros E HI. destruct (create_some _ _ E) as (_ & HN & _). assert (HL : length (ids c) = size c) by apply map_length. intros z Hz. rewrite <- HL in Hz. apply pigeonhole; [exact HN| |exact Hz]. intros x Hx. rewrite HL. now apply HI.
Qed.
Lemma group_nonempty c g : create c = Ok fresh -> groups_ok c -> g < num_groups c -> group_to_ids c (Z.of_nat g) <> [].
Proof.
  intros E HG Hg. destruct (create_some _ _ E) as (_ & _ & _ & HL). set (l := nodup Z.eq_dec (groups c)). change (num_groups c) with (length l) in *.
  assert (HR : forall x, In x l -> rng (length l) x). { intros x Hx. apply nodup_In in Hx. split; [|now apply HL]. unfold groups in Hx. apply in_map_iff in Hx. destruct Hx as (ind & <- & Hi). now apply HG. }
  assert (Hin : In (Z.of_nat g) l) by (apply pigeonhole; [apply NoDup_nodup|exact HR|now apply rng_of]). apply nodup_In in Hin. destruct (In_nth _ _ 0%Z Hin) as (k & Hk & Ek).
  intros E0. assert (H : In (Z.of_nat k) (group_to_ids c (Z.of_nat g))); [|rewrite E0 in H; destruct H]. unfold group_to_ids. apply in_map, filter_In. split; [apply in_seq; unfold groups in Hk; rewrite map_length in Hk; unfold size; lia|]. apply Z.eqb_eq. exact Ek.
Qed.

Lemma simulate_some c exps chs sa sd dt fuel w s : simulate c exps chs sa sd dt fuel w = Ok s ->
  create c = Ok fresh /\ exists s0, started c exps sa sd dt = Ok s0 /\ advance c exps chs sa sd dt fuel w s0 = Ok s.
Proof.
  unfold simulate. destruct (create c) as [s1| |] eqn:E; cbn [bind]; try discriminate. destruct (create_some _ _ E) as (-> & _). intros H. split; [reflexivity|]. unfold run in H. cbv zeta in H. unfold started.
  change (with_saved (with_time fresh (c_start c) (s_q fresh)) (s_all (with_time fresh (c_start c) (s_q fresh))) (s_saved (with_time fresh (c_start c) (s_q fresh))) (s_t (with_time fresh (c_start c) (s_q fresh)) + dt)%num)
    with (with_saved (with_time fresh (c_start c) []) [] [] (c_start c + dt)%num) in H.
  destruct (initialize _ _ _ _) as [s1| |]; cbn [bind] in *; try discriminate. eexists. split; [reflexivity|exact H].
Qed.
Lemma simulate_inv c exps chs sa sd dt fuel w s : ids_ok c -> delays_ok c -> exponentials exps -> simulate c exps chs sa sd dt fuel w = Ok s -> inv c s.
Proof.
  intros HI HD HE H. apply simulate_some in H. destruct H as (HC & s0 & H0 & H). assert (HR := ids_range c HC HI). apply (started_inv c exps HR HD HE) in H0. destruct H0 as (H0 & _). now apply (advance_inv c exps chs HR HD HE) in H.
Qed.

(** * Stopping *)
Lemma advance_last c exps chs sa sd dt w : ids_rng c -> delays_ok c -> exponentials exps -> forall fuel s s', inv c s -> (forall r, In r (s_rec s) -> (end_time r < c_end c)%num) ->
  advance c exps chs sa sd dt fuel w s = Ok s' -> exists l1 l2, s_rec s' = l1 ++ l2 /\ length l2 <= 1 /\ forall r, In r l1 -> (end_time r < c_end c)%num.
Proof.
  intros HI HD HE. induction fuel as [|f IH]; intros s s' HV HR E; [discriminate|]. cbn [advance] in E.
  assert (Hid : exists l1 l2, s_rec s = l1 ++ l2 /\ length l2 <= 1 /\ forall r, In r l1 -> (end_time r < c_end c)%num) by (exists (s_rec s), []; rewrite app_nil_r; split; [reflexivity|split; [cbn; lia|exact HR]]).
  destruct (qltb_spec (s_t s) (c_end c)) as [Ht|Ht]; [|injection E as <-; exact Hid]. destruct (pop (s_q s)) as [[e q]|] eqn:Ep; [|injection E as <-; exact Hid].
  destruct (treat c exps chs sa sd dt w s e q) as [s1| |] eqn:E1; cbn [bind] in E; try discriminate. apply (treat_inv c exps chs HI HD HE) in E1; [|exact HV|exact Ep]. destruct E1 as (H1 & _ & T1 & l & R1 & L1 & Hl).
  destruct (qltb_spec (s_t s1) (c_end c)) as [Ht1|Ht1].
  - apply (IH s1 s' H1); [|exact E]. intros r Hr. rewrite R1 in Hr. apply in_app_or in Hr. destruct Hr as [Hr|Hr]; [now apply HR|]. now rewrite (Hl r Hr).
  - destruct f as [|f]; [discriminate|]. cbn [advance] in E. destruct (qltb_spec (s_t s1) (c_end c)) as [Hx|_]; [contradiction|]. injection E as <-. exists (s_rec s), l. auto.
Qed.
(** the same simulation with another end *)
Definition until (c : config) (b : num) : config := {| c_inds := c_inds c; c_start := c_start c; c_end := b; c_num := c_num c; c_method := c_method c |}.
Lemma advance_until c exps chs sa sd dt w a b : ids_rng c -> delays_ok c -> exponentials exps -> (a <= b)%num -> forall f1 f2 s s1 s2, inv c s ->
  advance (until c a) exps chs sa sd dt f1 w s = Ok s1 -> advance (until c b) exps chs sa sd dt f2 w s = Ok s2 ->
  exists l, s_rec s2 = s_rec s1 ++ l /\ forall r, In r l -> (a <= end_time r)%num.
Proof.
  intros HI HD HE Hab. induction f1 as [|f1 IH]; intros f2 s s1 s2 HV E1 E2; [discriminate|]. cbn [advance] in E1. cbn [c_end until] in E1. destruct (qltb_spec (s_t s) a) as [Ht|Ht].
  - destruct f2 as [|f2]; [discriminate|]. cbn [advance] in E2. cbn [c_end until] in E2. destruct (qltb_spec (s_t s) b) as [_|Hb]; [|exfalso; apply Hb; eapply Qclt_le_trans; eassumption].
    destruct (pop (s_q s)) as [[e q]|] eqn:Ep; [|injection E1 as <-; injection E2 as <-; exists []; rewrite app_nil_r; split; [reflexivity|intros r []]].
    change (treat (until c a)) with (treat c) in E1. change (treat (until c b)) with (treat c) in E2. destruct (treat c exps chs sa sd dt w s e q) as [s0| |] eqn:E0; cbn [bind] in E1, E2; try discriminate.
    apply (treat_inv c exps chs HI HD HE) in E0; [|exact HV|exact Ep]. destruct E0 as (H0 & _). now apply (IH f2 s0).
  - injection E1 as <-. apply Qcnot_lt_le in Ht. destruct (advance_inv (until c b) exps chs HI HD HE sa sd dt w f2 s s2) as (_ & _ & l & Hl & HL).
    + destruct HV. constructor; assumption.
    + exact E2.
    + exists l. split; [exact Hl|]. intros r Hr. eapply Qcle_trans; [exact Ht|now apply HL].
Qed.

(** * Saved states *)
Definition keys_ok (c : config) (dt : num) (sd : bool) (s : state) : Prop :=
  StronglySorted Qclt (map fst (s_all s)) /\ StronglySorted Qclt (map fst (s_saved s)) /\
  (forall k x, nth_error (s_saved s) k = Some x -> (c_start c + qn k * dt <= fst x)%num) /\
  (sd = true -> s_bin s = (c_start c + qn (length (s_saved s)) * dt)%num).
Lemma sorted_snoc (l : list num) t : StronglySorted Qclt l -> (forall x, In x l -> (x < t)%num) -> StronglySorted Qclt (l ++ [t]).
Proof.
  induction 1 as [|a l HS IH HF]; intros H; cbn; [constructor; constructor|]. constructor; [apply IH; intros x Hx; apply H; now right|]. apply Forall_app. split; [exact HF|]. constructor; [apply H; now left|constructor].
Qed.
Lemma save_keys c sa sd dt prev s : keys_ok c dt sd s -> (forall x, In x (s_all s) \/ In x (s_saved s) -> (fst x <= prev)%num) -> keys_ok c dt sd (save sa sd dt prev s).
Proof.
  intros (H1 & H2 & H3 & H4) HB. unfold save. destruct (qltb_spec prev (s_t s)) as [Hp|_]; [|repeat split; assumption]. cbv zeta.
  assert (HA : StronglySorted Qclt (map fst (if sa then s_all s ++ [(s_t s, s_A s)] else s_all s))).
  { destruct sa; [|exact H1]. rewrite map_app. apply sorted_snoc; [exact H1|]. intros x Hx. apply in_map_iff in Hx. destruct Hx as (y & <- & Hy). eapply Qcle_lt_trans; [apply HB; now left|exact Hp]. }
  destruct sd; cbn [andb].
  - specialize (H4 eq_refl). destruct (qleb_spec (s_bin s) (s_t s)) as [Hb|Hb]; (split; [exact HA|]); cbn [s_saved s_bin with_saved].
    + split; [|split].
      * rewrite map_app. apply sorted_snoc; [exact H2|]. intros x Hx. apply in_map_iff in Hx. destruct Hx as (y & <- & Hy). eapply Qcle_lt_trans; [apply HB; now right|exact Hp].
      * intros k x Hk. apply nth_error_snoc in Hk. destruct Hk as [Hk|[-> ->]]; [now apply H3|]. cbn [fst]. now rewrite <- H4.
      * intros _. rewrite app_length, H4, Nat.add_1_r, qn_S. ring.
    + split; [exact H2|]. split; [exact H3|]. intros _. exact H4.
  - split; [exact HA|]. cbn [s_saved s_bin with_saved]. split; [exact H2|]. split; [exact H3|discriminate].
Qed.
Lemma treat_keys c exps chs sa sd dt w s e q s' : ids_rng c -> delays_ok c -> exponentials exps -> inv c s -> pop (s_q s) = Some (e, q) -> keys_ok c dt sd s -> treat c exps chs sa sd dt w s e q = Ok s' -> keys_ok c dt sd s'.
Proof.
  intros HI HD HE HV Ep HK E. unfold treat in E. cbv zeta in E.
  assert (HB : forall x, In x (s_all s) \/ In x (s_saved s) -> (fst x <= s_t s)%num) by (intros x Hx; now apply (v_saved c s HV)).
  set (same := fun s1 : state => s_all s1 = s_all s /\ s_saved s1 = s_saved s /\ s_bin s1 = s_bin s).
  assert (HS : forall s1, same s1 -> keys_ok c dt sd (save sa sd dt (s_t s) s1)).
  { intros s1 (Ea & Es & Eb). apply save_keys; [unfold keys_ok; rewrite Ea, Es, Eb; exact HK|]. rewrite Ea, Es. exact HB. }
  destruct e as [t i|t i p].
  - destruct (activation_time_inv c s t i q HV Ep) as (H1 & Hi & Ht). unfold activate in E. cbn [ev_time] in E. destruct (put_activation c exps (with_time s t q) i) as [s1| |] eqn:E1; cbn [bind] in E; try discriminate.
    apply (put_activation_some c exps HD HE) in E1. destruct E1 as (d & _ & ->).
    assert (HT : forall m s1 s2, same s1 -> interact_times c exps chs m w s1 i = Ok s2 -> same s2).
    { induction m as [|m IH]; intros s1 s2 Hs E2; cbn in E2; [now injection E2 as <-|]. destruct (interact c exps chs w s1 i) as [s3| |] eqn:E3; cbn in E2; try discriminate. apply (IH s3 s2); [|exact E2]. clear IH E2.
      unfold interact in E3. destruct (new_partner c chs w s1 i) as [[r s4]| |] eqn:E4; cbn [bind] in E3; try discriminate. apply new_partner_spec in E4; [|exact HI|exact Hi]. destruct E4 as [(nc & ->) _]. cbn [fst snd] in E3. destruct r as [p|]; [|now injection E3 as <-].
      destruct (wrap (size c) i), (wrap (size c) p); try discriminate. apply (put_interaction_some c exps HD HE) in E3. destruct E3 as (d' & _ & ->). exact Hs. }
    destruct (interact_times _ _ _ _ _ _ _) as [s2| |] eqn:E2; cbn [bind] in E; try discriminate. injection E as <-. apply HS. revert E2. apply HT. repeat split.
  - unfold finish in E. destruct (wrap (size c) i), (wrap (size c) p); cbn [bind] in E; try discriminate. injection E as <-. apply HS. repeat split.
Qed.
Lemma advance_keys c exps chs sa sd dt w : ids_rng c -> delays_ok c -> exponentials exps -> forall fuel s s', inv c s -> keys_ok c dt sd s -> advance c exps chs sa sd dt fuel w s = Ok s' -> keys_ok c dt sd s'.
Proof.
  intros HI HD HE. induction fuel as [|f IH]; intros s s' HV HK E; [discriminate|]. cbn [advance] in E. destruct (qltb (s_t s) (c_end c)); [|now injection E as <-]. destruct (pop (s_q s)) as [[e q]|] eqn:Ep; [|now injection E as <-].
  destruct (treat c exps chs sa sd dt w s e q) as [s1| |] eqn:E1; cbn [bind] in E; try discriminate. apply (IH s1 s'); [|now apply (treat_keys c exps chs sa sd dt w s e q s1)|exact E]. now apply (treat_inv c exps chs HI HD HE) in E1.
Qed.
Lemma started_keys c exps sa sd dt s : delays_ok c -> exponentials exps -> started c exps sa sd dt = Ok s -> keys_ok c dt sd s.
Proof.
  intros HD HE. unfold started. assert (HT : forall l s1 s2, initialize c exps l s1 = Ok s2 -> s_all s2 = s_all s1 /\ s_saved s2 = s_saved s1 /\ s_bin s2 = s_bin s1 /\ s_t s2 = s_t s1).
  { induction l as [|i l IH]; intros s1 s2 E; cbn in E; [injection E as <-; auto|]. destruct (put_activation c exps s1 i) as [s3| |] eqn:E1; cbn [bind] in E; try discriminate. apply (put_activation_some c exps HD HE) in E1. destruct E1 as (d & _ & ->). apply IH in E. exact E. }
  destruct (initialize _ _ _ _) as [s1| |] eqn:E1; cbn [bind]; try discriminate. apply HT in E1. cbn in E1. destruct E1 as (Ea & Es & Eb & Et). intros E. injection E as <-. unfold keys_ok. cbn. rewrite Ea, Es, Eb, Et.
  split; [destruct sa; cbn; repeat constructor|]. split; [destruct sd; cbn; repeat constructor|]. destruct sd; cbn.
  - split; [|intros _; change (qn 1) with 1%num; ring]. intros k x Hk. destruct k as [|k]; [|destruct k; discriminate]. injection Hk as <-. cbn. change (qn 0) with 0%num. replace (c_start c + 0 * dt)%num with (c_start c) by ring. apply Qcle_refl.
  - split; [|discriminate]. intros k x Hk. destruct k; discriminate.
Qed.
