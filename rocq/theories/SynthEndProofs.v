(** Lemmas for the simulation: no exceptions, termination. *)
From Verif Require Import Base SynthModel SynthSpec SynthProofs SynthRunProofs.
From Coq Require Import ZArith Permutation.

(** * No exceptions *)
Definition safe {A} (x : outcome A) : Prop := x <> Raise.
Lemma safe_bind {A B} (x : outcome A) (f : A -> outcome B) : safe x -> (forall a, x = Ok a -> safe (f a)) -> safe (bind x f).
Proof. unfold safe. destruct x as [a| |]; cbn; intros H1 H2; [now apply H2|now elim H1|discriminate]. Qed.
Section Safe.
Context (c : config) (exps : nat -> num) (chs : nat -> nat).
Context (HC : create c = Ok fresh) (HI : ids_rng c) (HD : delays_ok c) (HE : exponentials exps) (HG : groups_ok c) (HS : scales_ok c) (HW : weights_ok c) (HP : rows_positive c).
Lemma reject_safe w : forall k pot un, pot <> [] -> safe (reject chs w k pot un).
Proof.
  induction w as [|w IH]; intros k pot un Hp; [discriminate|]. cbn [reject]. destruct pot as [|x pot]; [now elim Hp|]. cbv zeta. destruct (zmem _ un); [now apply IH|discriminate].
Qed.
Lemma pick_unless_safe stop w s pot un : pot <> [] -> safe (pick_unless chs stop w s pot un).
Proof. intros H. unfold pick_unless. destruct stop; [discriminate|]. apply safe_bind; [now apply reject_safe|discriminate]. Qed.
Lemma total_positive row : (forall x, In x row -> (0 <= x)%num) -> total row <> 0%num -> exists b, b < length row /\ (0 < nth b row 0)%num.
Proof.
  induction row as [|x row IH]; intros H H0; [now elim H0|]. destruct (qle_lt_or_eq 0%num x (H x (or_introl eq_refl))) as [Hx|Hx].
  - exists 0. split; [cbn; lia|exact Hx].
  - destruct IH as (b & Hb & Hp).
    + intros y Hy. apply H. now right.
    + intros E. apply H0. unfold total in *. rewrite sumL_cons, E, <- Hx. ring.
    + exists (S b). split; [cbn; lia|exact Hp].
Qed.
Lemma choice_safe k p : length p = num_groups c -> (forall x, In x p -> (0 <= x)%num) -> total p = 1%num -> safe (choice_p c chs k p).
Proof.
  intros HL HN HT. unfold choice_p. rewrite HL, Nat.eqb_refl. cbn [negb]. destruct (existsb (fun x => qltb x 0) p) eqn:E.
  - apply existsb_exists in E. destruct E as (x & Hx & E). exfalso. destruct (qltb_spec x 0%num) as [H|]; [|discriminate]. apply (Qclt_not_le _ _ H). now apply HN.
  - rewrite HT. replace (1 - 1)%num with 0%num by ring. destruct (qltb (qf 15 1000000000) (qabs 0)) eqn:E2; [vm_compute in E2; discriminate|].
    destruct (total_positive p HN) as (b & Hb & Hpos); [rewrite HT; discriminate|]. destruct (filter (fun g => qltb 0 (nth g p 0%num)) (seq 0 (num_groups c))) as [|x l] eqn:EF; [|discriminate].
    exfalso. assert (H : In b (filter (fun g => qltb 0 (nth g p 0%num)) (seq 0 (num_groups c)))); [|rewrite EF in H; destruct H]. apply filter_In. split; [apply in_seq; lia|]. now destruct (qltb_spec 0%num (nth b p 0%num)).
Qed.
Lemma choice_below k p g : choice_p c chs k p = Ok g -> g < num_groups c.
Proof.
  unfold choice_p. destruct (negb _); [discriminate|]. destruct (existsb _ _); [discriminate|]. destruct (qltb _ _); [discriminate|].
  destruct (filter (fun g => qltb 0 (nth g p 0%num)) (seq 0 (num_groups c))) as [|x l] eqn:E; [discriminate|]. set (pos := x :: l) in *. intros Eg. assert (Ez : g = nth (chs k mod length pos) pos 0) by congruence. subst g.
  assert (Hin : In (nth (chs k mod length pos) pos 0) pos) by (apply nth_In, Nat.mod_upper_bound; discriminate). revert Hin. generalize (nth (chs k mod length pos) pos 0). intros g Hin. rewrite <- E in Hin. apply filter_In in Hin. destruct Hin as [Hin _]. apply in_seq in Hin. lia.
Qed.
Lemma pick_block_safe w s i k p : length p = num_groups c -> (forall x, In x p -> (0 <= x)%num) -> total p = 0%num \/ total p = 1%num -> safe (pick_block c chs w s i k (Some p)).
Proof.
  intros HL HN HT. unfold pick_block. destruct (qeqb_spec (total p) 0%num) as [|H0]; [discriminate|]. destruct HT as [HT|HT]; [contradiction|]. apply safe_bind; [now apply choice_safe|]. intros g Eg. cbv zeta. apply choice_below in Eg.
  assert (HNE := group_nonempty c g HC HG Eg). destruct (group_to_ids c (Z.of_nat g)); [now elim HNE|]. apply pick_unless_safe. discriminate.
Qed.
Lemma group_at_row k : k < size c -> In (group_at c k) (groups c) /\ rng (num_groups c) (group_at c k).
Proof.
  intros Hk. assert (Hin : In (group_at c k) (groups c)) by (apply nth_In; unfold groups; now rewrite map_length). split; [exact Hin|]. destruct (create_some _ _ HC) as (_ & _ & _ & HL). split; [|now apply HL].
  unfold groups in Hin. apply in_map_iff in Hin. destruct Hin as (ind & <- & Hi). now apply HG.
Qed.
Lemma row_at_in {A} (P : list A) g : rng (length P) g -> exists row, row_at P g = Some row /\ In row P.
Proof.
  intros Hg. unfold row_at. rewrite (wrap_rng _ _ Hg). destruct (rng_nat _ _ Hg) as [_ HL]. destruct (nth_error P (Z.to_nat g)) as [row|] eqn:E; [exists row; split; [reflexivity|now apply nth_error_In in E]|]. apply nth_error_None in E. lia.
Qed.
Lemma normalized_row (row : list num) : total row <> 0%num -> total (map (fun x => x / total row)%num row) = 1%num.
Proof.
  intros H. assert (E : forall l t, total (map (fun x => x / t)%num l) = (total l * / t)%num).
  { induction l as [|x l IH]; intros t; unfold total in *; cbn [map]; [rewrite !sumL_nil; ring|]. rewrite !sumL_cons, IH. unfold Qcdiv. ring. }
  rewrite E. now apply Qcmult_inv_r.
Qed.
Lemma new_partner_safe w s i : rng (size c) i -> safe (new_partner c chs w s i).
Proof.
  intros Hi. unfold new_partner. rewrite (wrap_rng _ _ Hi). cbv zeta. destruct (rng_nat _ _ Hi) as [Ei Li]. destruct (group_at_row _ Li) as [HGi HGr]. unfold weights_ok, rows_positive in HW, HP. destruct (c_method c) as [| |P|f|].
  - apply pick_unless_safe. assert (H := all_ids c HC HI i Hi). intros E. rewrite E in H. destruct H.
  - assert (H : In i (group_to_ids c (group_at c (Z.to_nat i)))). { rewrite <- Ei at 1. unfold group_to_ids. apply in_map, filter_In. split; [apply in_seq; lia|apply Z.eqb_refl]. }
    destruct (group_to_ids c (group_at c (Z.to_nat i))); [destruct H|]. apply pick_unless_safe. discriminate.
  - destruct HW as [[HL HR] HN]. assert (HLn : length (normalized P) = num_groups c) by (unfold normalized; now rewrite map_length).
    destruct (row_at_in (normalized P) (group_at c (Z.to_nat i))) as (row & Er & Hin); [now rewrite HLn|]. rewrite Er. unfold normalized in Hin. apply in_map_iff in Hin. destruct Hin as (rw & <- & Hrw). assert (Hpos := HP rw Hrw). change (row_sum rw) with (total rw) in Hpos.
    destruct (qeqb_spec (total rw) 0%num) as [E|Hne]; [rewrite E in Hpos; discriminate|]. apply pick_block_safe.
    + rewrite map_length. now apply HR.
    + intros x Hx. apply in_map_iff in Hx. destruct Hx as (y & <- & Hy). apply qdiv_nonneg; [now apply (HN rw)|exact Hpos].
    + right. now apply normalized_row.
  - destruct (HW (s_t s)) as ([HL HR] & HN & HT). destruct (row_at_in (f (s_t s)) (group_at c (Z.to_nat i))) as (row & Er & Hin); [now rewrite HL|]. rewrite Er. apply pick_block_safe; [now apply HR|intros x; now apply HN|now apply HT].
  - destruct HW.
Qed.
Lemma draw_safe f t x : (0 < snd (f t))%num -> safe (draw f t x).
Proof. unfold draw. destruct (f t) as [l sc]. cbn. intros H. destruct (qleb_spec sc 0%num) as [H'|]; [|discriminate]. exfalso. now apply (Qclt_not_le _ _ H). Qed.
Lemma ind_at i : rng (size c) i -> exists ind, nth_error (c_inds c) (Z.to_nat i) = Some ind /\ In ind (c_inds c).
Proof. intros Hi. destruct (rng_nat _ _ Hi) as [_ HL]. destruct (nth_error (c_inds c) (Z.to_nat i)) as [ind|] eqn:E; [exists ind; split; [reflexivity|now apply nth_error_In in E]|]. apply nth_error_None in E. unfold size in HL. lia. Qed.
Lemma put_activation_safe s i : rng (size c) i -> safe (put_activation c exps s i).
Proof. intros Hi. unfold put_activation. rewrite (wrap_rng _ _ Hi). destruct (ind_at i Hi) as (ind & -> & Hin). apply safe_bind; [apply draw_safe; now apply HS|discriminate]. Qed.
Lemma put_interaction_safe s i p : rng (size c) i -> safe (put_interaction c exps s i p).
Proof. intros Hi. unfold put_interaction. rewrite (wrap_rng _ _ Hi). destruct (ind_at i Hi) as (ind & -> & Hin). apply safe_bind; [apply draw_safe; now apply HS|discriminate]. Qed.
Lemma interact_safe w s i : rng (size c) i -> safe (interact c exps chs w s i).
Proof.
  intros Hi. unfold interact. apply safe_bind; [now apply new_partner_safe|]. intros [r s1] E. cbn [fst snd]. apply new_partner_spec in E; [|exact HI|exact Hi]. destruct E as [_ H]. destruct r as [p|]; [|discriminate].
  destruct (H p eq_refl) as (Hp & _). rewrite (wrap_rng _ _ Hi), (wrap_rng _ _ Hp). now apply put_interaction_safe.
Qed.
Lemma interact_times_safe m w : forall s i, rng (size c) i -> safe (interact_times c exps chs m w s i).
Proof. induction m as [|m IH]; intros s i Hi; cbn [interact_times]; [discriminate|]. apply safe_bind; [now apply interact_safe|]. intros s1 _. now apply IH. Qed.
Lemma treat_safe sa sd dt w s e q : inv c s -> pop (s_q s) = Some (e, q) -> safe (treat c exps chs sa sd dt w s e q).
Proof.
  intros HV Ep. unfold treat. cbv zeta. assert (H0 : In e (s_q s)) by (apply (Permutation_in _ (Permutation_sym (pop_perm _ _ _ Ep))); now left). assert (Hi := v_ids c s HV e H0). apply safe_bind; [|discriminate]. destruct e as [t i|t i p]; cbn [ev_id] in Hi.
  - unfold activate. apply safe_bind; [now apply put_activation_safe|]. intros s1 _. now apply interact_times_safe.
  - destruct (v_int c s HV t i p H0) as (Hp & _). unfold finish. rewrite (wrap_rng _ _ Hi), (wrap_rng _ _ Hp). discriminate.
Qed.
Lemma advance_safe sa sd dt w fuel : forall s, inv c s -> safe (advance c exps chs sa sd dt fuel w s).
Proof.
  induction fuel as [|f IH]; intros s HV; [discriminate|]. cbn [advance]. destruct (qltb (s_t s) (c_end c)); [|discriminate]. destruct (pop (s_q s)) as [[e q]|] eqn:Ep; [|discriminate].
  apply safe_bind; [now apply treat_safe|]. intros s1 E1. apply IH. now apply (treat_inv c exps chs HI HD HE) in E1.
Qed.
Lemma initialize_safe l : forall s, (forall z, In z l -> rng (size c) z) -> safe (initialize c exps l s).
Proof. induction l as [|i l IH]; intros s Hl; cbn [initialize]; [discriminate|]. apply safe_bind; [apply put_activation_safe, Hl; now left|]. intros s1 _. apply IH. intros z Hz. apply Hl. now right. Qed.
Lemma simulate_safe sa sd dt fuel w : safe (simulate c exps chs sa sd dt fuel w).
Proof.
  unfold simulate. rewrite HC. cbn [bind]. unfold run. cbv zeta. apply safe_bind; [now apply initialize_safe|]. intros s E. apply advance_safe. apply (initialize_inv c exps HD HE) in E; [|exact HI|apply fresh_inv]. destruct E as (HV & _).
  apply with_saved_inv; [exact HV|]. assert (HNw := saved_now _ _ HV). assert (HSv := v_saved _ _ HV). intros x [Hx|Hx]; [destruct sa|destruct sd]; try (destruct Hx as [<-|[]]; exact HNw); apply HSv; auto.
Qed.
End Safe.

(** * More patience never changes a result *)
Definition approx {A} (x y : outcome A) : Prop := x = Loop \/ x = y.
Lemma approx_refl {A} (x : outcome A) : approx x x.
Proof. now right. Qed.
Lemma approx_bind {A B} (x y : outcome A) (f g : A -> outcome B) : approx x y -> (forall a, approx (f a) (g a)) -> approx (bind x f) (bind y g).
Proof. intros [-> | ->] H; [now left|]. destruct y as [a| |]; cbn; [apply H|now right|now left]. Qed.
Section Patience.
Context (c : config) (exps : nat -> num) (chs : nat -> nat).
Lemma reject_more w : forall w' k pot un, w <= w' -> approx (reject chs w k pot un) (reject chs w' k pot un).
Proof.
  induction w as [|w IH]; intros w' k pot un Hw; [now left|]. destruct w' as [|w']; [lia|]. cbn [reject]. destruct pot as [|x pot]; [now right|]. cbv zeta. destruct (zmem _ un); [apply IH; lia|now right].
Qed.
Lemma pick_unless_more stop w w' s pot un : w <= w' -> approx (pick_unless chs stop w s pot un) (pick_unless chs stop w' s pot un).
Proof. intros H. unfold pick_unless. destruct stop; [now right|]. apply approx_bind; [now apply reject_more|]. intros a. apply approx_refl. Qed.
Lemma pick_block_more w w' s i k row : w <= w' -> approx (pick_block c chs w s i k row) (pick_block c chs w' s i k row).
Proof.
  intros H. unfold pick_block. destruct row as [p|]; [|now right]. destruct (qeqb _ _); [now right|]. apply approx_bind; [apply approx_refl|]. intros g. cbv zeta. destruct (group_to_ids c (Z.of_nat g)); [now right|]. now apply pick_unless_more.
Qed.
Lemma new_partner_more w w' s i : w <= w' -> approx (new_partner c chs w s i) (new_partner c chs w' s i).
Proof.
  intros H. unfold new_partner. destruct (wrap (size c) i) as [k|]; [|now right]. cbv zeta. destruct (c_method c) as [| |P|f|].
  - now apply pick_unless_more.
  - destruct (group_to_ids c (group_at c k)); [now right|now apply pick_unless_more].
  - destruct (row_at _ _); [now apply pick_block_more|now right].
  - destruct (row_at _ _); [now apply pick_block_more|now right].
  - now right.
Qed.
Lemma interact_more w w' s i : w <= w' -> approx (interact c exps chs w s i) (interact c exps chs w' s i).
Proof. intros H. unfold interact. apply approx_bind; [now apply new_partner_more|]. intros a. apply approx_refl. Qed.
Lemma interact_times_more m w w' : w <= w' -> forall s i, approx (interact_times c exps chs m w s i) (interact_times c exps chs m w' s i).
Proof. intros H. induction m as [|m IH]; intros s i; cbn [interact_times]; [now right|]. apply approx_bind; [now apply interact_more|]. intros a. apply IH. Qed.
Lemma treat_more sa sd dt w w' s e q : w <= w' -> approx (treat c exps chs sa sd dt w s e q) (treat c exps chs sa sd dt w' s e q).
Proof.
  intros H. unfold treat. cbv zeta. apply approx_bind; [|intros a; apply approx_refl]. destruct e as [t i|t i p]; [|now right]. unfold activate. apply approx_bind; [apply approx_refl|]. intros a. now apply interact_times_more.
Qed.
Lemma advance_more sa sd dt fuel w w' : w <= w' -> forall s, approx (advance c exps chs sa sd dt fuel w s) (advance c exps chs sa sd dt fuel w' s).
Proof.
  intros H. induction fuel as [|f IH]; intros s; [now right|]. cbn [advance]. destruct (qltb (s_t s) (c_end c)); [|now right]. destruct (pop (s_q s)) as [[e q]|]; [|now right]. apply approx_bind; [now apply treat_more|]. intros a. apply IH.
Qed.
End Patience.

(** * Termination *)
Definition evt {A} (F : nat -> outcome A) : Prop := exists w, F w <> Loop.
Lemma evt_bind {A B} (F : nat -> outcome A) (G : nat -> A -> outcome B) : evt F -> (forall w w', w <= w' -> approx (F w) (F w')) -> (forall w a, F w = Ok a -> evt (fun w => G w a)) -> (forall w w' a, w <= w' -> approx (G w a) (G w' a)) ->
  evt (fun w => bind (F w) (G w)).
Proof.
  intros (w0 & H0) HM HG HMG. destruct (F w0) as [a| |] eqn:E0; [| |now elim H0].
  - destruct (HG w0 a E0) as (w1 & H1). exists (max w0 w1). destruct (HM w0 (max w0 w1) ltac:(lia)) as [E|E]; [congruence|]. rewrite <- E, E0. cbn. destruct (HMG w1 (max w0 w1) a ltac:(lia)) as [E'|E']; [congruence|]. now rewrite <- E'.
  - exists w0. rewrite E0. discriminate.
Qed.
Section Ends.
Context (c : config) (exps : nat -> num) (chs : nat -> nat).
Context (HC : create c = Ok fresh) (HI : ids_rng c) (HD : delays_ok c) (HE : exponentials exps) (HF : fair chs).
Lemma reject_hit d : forall k pot un z, ~ In z un -> pot <> [] -> nth (chs (k + d) mod length pot) pot 0%Z = z -> reject chs (S d) k pot un <> Loop.
Proof.
  induction d as [|d IH]; intros k pot un z Hz Hp E; cbn [reject]; (destruct pot as [|x pot]; [now elim Hp|]); set (pt := x :: pot) in *; cbv zeta.
  - rewrite Nat.add_0_r in E. rewrite E. apply zmem_false in Hz. rewrite Hz. discriminate.
  - destruct (zmem (nth (chs k mod length pt) pt 0%Z) un); [|discriminate]. change (reject chs (S d) (S k) pt un <> Loop). apply (IH (S k) pt un z); [exact Hz|exact Hp|]. now replace (S k + d) with (k + S d) by lia.
Qed.
Lemma reject_evt k pot un z : In z pot -> ~ In z un -> evt (fun w => reject chs w k pot un).
Proof.
  intros Hin Hz. destruct (In_nth _ _ 0%Z Hin) as (r & Hr & Er). destruct (HF k (length pot) r Hr) as (k' & Hk & Ek). exists (S (k' - k)). apply (reject_hit (k' - k) k pot un z); [exact Hz|intros ->; destruct Hin|].
  replace (k + (k' - k)) with k' by lia. now rewrite Ek.
Qed.
Lemma pick_unless_evt stop s pot un : (stop = false -> exists z, In z pot /\ ~ In z un) -> evt (fun w => pick_unless chs stop w s pot un).
Proof.
  intros H. unfold pick_unless. destruct stop; [exists 0; discriminate|]. destruct (H eq_refl) as (z & H1 & H2). apply (evt_bind (fun w => reject chs w (s_nc s) pot un) (fun _ r => Ok (Some (fst r), with_choices s (snd r)))).
  - now apply (reject_evt _ _ _ z).
  - intros w w' Hw. now apply reject_more.
  - intros w a _. exists 0. discriminate.
  - intros w w' a _. apply approx_refl.
Qed.
Lemma not_subset pot un : forallb (fun z => zmem z un) pot = false -> exists z, In z pot /\ ~ In z un.
Proof.
  intros H. induction pot as [|x pot IH]; [discriminate|]. cbn in H. destruct (zmem x un) eqn:E; cbn in H.
  - destruct (IH H) as (z & H1 & H2). exists z. split; [now right|exact H2].
  - exists x. split; [now left|now apply zmem_false].
Qed.
Lemma not_same pot un : (forall z, In z un -> In z pot) -> same_set pot un = false -> exists z, In z pot /\ ~ In z un.
Proof.
  intros Hs H. unfold same_set in H. apply andb_false_iff in H. destruct H as [H|H]; [now apply not_subset|]. exfalso. assert (E : forallb (fun z => zmem z pot) un = true); [|congruence]. apply forallb_forall. intros z Hz. now apply zmem_in, Hs.
Qed.
Lemma pick_block_evt s i k row : evt (fun w => pick_block c chs w s i k row).
Proof.
  unfold pick_block. destruct row as [p|]; [|exists 0; discriminate]. destruct (qeqb _ _); [exists 0; discriminate|]. destruct (choice_p c chs (s_nc s) p) as [g| |] eqn:Eg; cbn [bind]; [|exists 0; discriminate|].
  - cbv zeta. destruct (group_to_ids c (Z.of_nat g)) as [|x l]; [exists 0; discriminate|]. apply pick_unless_evt. apply not_subset.
  - unfold choice_p in Eg. destruct (negb _); [discriminate|]. destruct (existsb _ _); [discriminate|]. destruct (qltb _ _); [discriminate|]. destruct (filter _ _); discriminate.
Qed.
Lemma new_partner_evt s i : inv c s -> rng (size c) i -> evt (fun w => new_partner c chs w s i).
Proof.
  intros HV Hi. unfold new_partner. rewrite (wrap_rng _ _ Hi). cbv zeta. destruct (rng_nat _ _ Hi) as [Ei Li].
  assert (HO : forall z, In z (un_partners c s i (Z.to_nat i)) -> z = i \/ (exists b, z = Z.of_nat b /\ b < size c /\ s_A s (Z.to_nat i) b = true)).
  { intros z [<-|Hz]; [now left|]. right. apply in_map_iff in Hz. destruct Hz as (b & <- & Hb). apply filter_In in Hb. destruct Hb as [Hb HA]. apply in_seq in Hb. exists b. split; [reflexivity|]. split; [lia|exact HA]. }
  destruct (c_method c) as [| |P|f|] eqn:EM.
  - apply pick_unless_evt. apply not_same. intros z Hz. apply (all_ids c HC HI). destruct (HO z Hz) as [-> |(b & -> & Hb & _)]; [exact Hi|now apply rng_of].
  - assert (HX : forall z, In z (un_partners c s i (Z.to_nat i)) -> In z (group_to_ids c (group_at c (Z.to_nat i)))).
    { intros z Hz. destruct (HO z Hz) as [-> |(b & -> & Hb & HA)].
      - rewrite <- Ei at 1. apply in_map, filter_In. split; [apply in_seq; lia|apply Z.eqb_refl].
      - apply in_map, filter_In. split; [apply in_seq; lia|]. apply Z.eqb_eq. destruct (v_open c s HV _ _ HA) as (_ & _ & H). unfold chosen in H. rewrite EM, !Nat2Z.id in H. now symmetry. }
    destruct (group_to_ids c (group_at c (Z.to_nat i))) as [|x l]; [exists 0; discriminate|]. apply pick_unless_evt. now apply not_same.
  - destruct (row_at _ _); [apply pick_block_evt|exists 0; discriminate].
  - destruct (row_at _ _); [apply pick_block_evt|exists 0; discriminate].
  - exists 0. discriminate.
Qed.
Lemma draw_not_loop f t x : draw f t x <> Loop.
Proof. unfold draw. destruct (f t). destruct (qleb _ _); discriminate. Qed.
Lemma put_interaction_not_loop s i p : put_interaction c exps s i p <> Loop.
Proof. unfold put_interaction. destruct (wrap _ _); [|discriminate]. destruct (nth_error _ _); [|discriminate]. destruct (draw _ _ _) eqn:E; cbn; try discriminate. exfalso. now apply draw_not_loop in E. Qed.
Lemma put_activation_not_loop s i : put_activation c exps s i <> Loop.
Proof. unfold put_activation. destruct (wrap _ _); [|discriminate]. destruct (nth_error _ _); [|discriminate]. destruct (draw _ _ _) eqn:E; cbn; try discriminate. exfalso. now apply draw_not_loop in E. Qed.
Lemma interact_evt s i : inv c s -> rng (size c) i -> evt (fun w => interact c exps chs w s i).
Proof.
  intros HV Hi. unfold interact. apply (evt_bind (fun w => new_partner c chs w s i) (fun _ r => match fst r with None => Ok (snd r) | Some p => match wrap (size c) i, wrap (size c) p with
      | Some a, Some b => put_interaction c exps (with_contact (snd r) (set2 (s_A (snd r)) a b true) (set2 (s_last (snd r)) a b (s_t (snd r))) (s_rec (snd r))) i p | _, _ => Raise end end)).
  - now apply new_partner_evt.
  - intros w w' Hw. now apply new_partner_more.
  - intros w [r s1] _. exists 0. cbn [fst snd]. destruct r as [p|]; [|discriminate]. destruct (wrap (size c) i), (wrap (size c) p); try discriminate. apply put_interaction_not_loop.
  - intros w w' a _. apply approx_refl.
Qed.
Lemma interact_times_evt m : forall s i, inv c s -> rng (size c) i -> evt (fun w => interact_times c exps chs m w s i).
Proof.
  induction m as [|m IH]; intros s i HV Hi; cbn [interact_times]; [exists 0; discriminate|]. apply (evt_bind (fun w => interact c exps chs w s i) (fun w s => interact_times c exps chs m w s i)).
  - now apply interact_evt.
  - intros w w' Hw. now apply interact_more.
  - intros w s1 E. apply IH; [|exact Hi]. now apply (interact_inv c exps chs HI HD HE) in E.
  - intros w w' a Hw. now apply interact_times_more.
Qed.
Lemma treat_evt sa sd dt s e q : inv c s -> pop (s_q s) = Some (e, q) -> evt (fun w => treat c exps chs sa sd dt w s e q).
Proof.
  intros HV Ep. unfold treat. cbv zeta. destruct e as [t i|t i p]; cbn [ev_time].
  - destruct (activation_time_inv c s t i q HV Ep) as (H1 & Hi & _). apply (evt_bind (fun w => activate c exps chs w (with_time s t q) i) (fun _ s1 => Ok (save sa sd dt (s_t s) s1))).
    + unfold activate. destruct (put_activation c exps (with_time s t q) i) as [s1| |] eqn:E1; cbn [bind]; [|exists 0; discriminate|now apply put_activation_not_loop in E1]. apply interact_times_evt; [|exact Hi]. now apply (put_activation_inv c exps HD HE) in E1.
    + intros w w' Hw. unfold activate. apply approx_bind; [apply approx_refl|]. intros a. now apply interact_times_more.
    + intros w a _. exists 0. discriminate.
    + intros w w' a _. apply approx_refl.
  - exists 0. unfold finish. destruct (wrap (size c) i), (wrap (size c) p); discriminate.
Qed.

(** number of activations an individual still can have *)
Context (delta : num) (Hdelta : (0 < delta)%num) (HSp : spaced c exps delta) (K : nat) (HK : (c_end c <= c_start c + qn K * delta)%num).
Definition left (t : num) : list nat := filter (fun k => qltb (t + qn k * delta)%num (c_end c)) (seq 0 K).
Lemma left_in t k : In k (left t) <-> k < K /\ (t + qn k * delta < c_end c)%num.
Proof. unfold left. rewrite filter_In, in_seq. destruct (qltb_spec (t + qn k * delta)%num (c_end c)); split; intros [H1 H2]; split; try lia; try easy. Qed.
Lemma left_less t d : (c_start c <= t)%num -> (t < c_end c)%num -> (delta <= d)%num -> S (length (left (t + d)%num)) <= length (left t).
Proof.
  intros H0 Ht Hd. assert (HN : NoDup (0 :: map S (left (t + d)%num))).
  { constructor; [intros H; apply in_map_iff in H; destruct H as (x & H & _); discriminate|]. apply FinFun.Injective_map_NoDup; [intros x y E; now injection E|]. apply NoDup_filter, seq_NoDup. }
  assert (HL := NoDup_incl_length HN (l' := left t)). cbn [length] in HL. rewrite map_length in HL. apply HL.
  assert (Hb : forall k, (t + qn k * delta < c_end c)%num -> k < K).
  { intros k Hk. destruct (Nat.lt_ge_cases k K) as [L|L]; [exact L|]. exfalso. apply qn_le in L. assert (H1 := qmult_nonneg (qn k - qn K)%num delta ltac:(revert L; generalize (qn k) (qn K); clear; qlra) (Qclt_le_weak _ _ Hdelta)).
    replace ((qn k - qn K) * delta)%num with (qn k * delta - qn K * delta)%num in H1 by ring. revert H1 Hk HK H0. generalize (qn k * delta)%num (qn K * delta)%num (c_start c) (c_end c). clear. qlra. }
  intros k [<-|Hk].
  - apply left_in. assert (E : (t + qn 0 * delta < c_end c)%num) by (rewrite qn_0; replace (t + 0 * delta)%num with t by ring; exact Ht). split; [now apply Hb|exact E].
  - apply in_map_iff in Hk. destruct Hk as (x & <- & Hx). apply left_in in Hx. destruct Hx as [_ Hx]. apply left_in. assert (E : (t + qn (S x) * delta < c_end c)%num).
    { rewrite qn_S. replace (t + (qn x + 1) * delta)%num with (t + qn x * delta + delta)%num by ring. revert Hx Hd. generalize (qn x * delta)%num. clear. qlra. }
    split; [now apply Hb|exact E].
Qed.
Definition weight (e : ev) : nat := match e with Act t _ => S (c_num c) * length (left t) | Int _ _ _ => 1 end.
Definition mu (q : list ev) : nat := list_sum (map weight q).
Lemma mu_cons e q : mu (e :: q) = weight e + mu q.
Proof. reflexivity. Qed.
Lemma mu_perm q q' : Permutation q q' -> mu q = mu q'.
Proof. induction 1; rewrite ?mu_cons; lia. Qed.
Lemma interact_mu w s i s' : rng (size c) i -> interact c exps chs w s i = Ok s' -> mu (s_q s') <= S (mu (s_q s)).
Proof.
  intros Hi E. unfold interact in E. destruct (new_partner c chs w s i) as [[r s1]| |] eqn:EN; cbn [bind] in E; try discriminate. cbn [fst snd] in E. apply new_partner_spec in EN; [|exact HI|exact Hi]. destruct EN as [(nc & ->) _].
  destruct r as [p|]; [|injection E as <-; cbn [s_q with_choices]; lia]. destruct (wrap (size c) i), (wrap (size c) p); try discriminate. apply (put_interaction_some c exps HD HE) in E. destruct E as (d & _ & ->). cbn [s_q with_queue with_contact with_choices]. rewrite mu_cons. cbn [weight]. lia.
Qed.
Lemma interact_times_mu m w : forall s i s', inv c s -> rng (size c) i -> interact_times c exps chs m w s i = Ok s' -> mu (s_q s') <= m + mu (s_q s).
Proof.
  induction m as [|m IH]; intros s i s' HV Hi E; cbn [interact_times] in E; [injection E as <-; lia|]. destruct (interact c exps chs w s i) as [s1| |] eqn:E1; cbn [bind] in E; try discriminate. assert (H1 := interact_mu w s i s1 Hi E1).
  apply (interact_inv c exps chs HI HD HE) in E1; [|exact Hi|exact HV]. apply IH in E; [|tauto|exact Hi]. lia.
Qed.
Lemma save_queue sa sd dt prev s : s_q (save sa sd dt prev s) = s_q s.
Proof. unfold save. destruct (qltb _ _); [|reflexivity]. cbv zeta. destruct (_ && _); reflexivity. Qed.
Lemma activation_mu s i s' : rng (size c) i -> (c_start c <= s_t s)%num -> (s_t s < c_end c)%num -> put_activation c exps s i = Ok s' -> mu (s_q s') + S (c_num c) <= S (c_num c) * length (left (s_t s)) + mu (s_q s).
Proof.
  intros Hi H0 Ht E. unfold put_activation in E. rewrite (wrap_rng _ _ Hi) in E. destruct (nth_error (c_inds c) (Z.to_nat i)) as [ind|] eqn:Ek; [|discriminate]. destruct (draw _ _ _) as [d| |] eqn:Ed; cbn [bind] in E; try discriminate. injection E as <-.
  apply nth_error_In in Ek. assert (HL := HSp ind (s_t s) (s_ne s) Ek). unfold draw in Ed. destruct (i_activ ind (s_t s)) as [loc sc]. cbn [fst snd] in HL. destruct (qleb sc 0); [discriminate|]. injection Ed as <-.
  cbn [s_q with_queue]. rewrite mu_cons. unfold weight. assert (H := left_less (s_t s) _ H0 Ht HL). remember (length (left (s_t s + (loc + sc * exps (s_ne s)))%num)) as x. remember (length (left (s_t s))) as y. nia.
Qed.
Lemma treat_mu sa sd dt w s e q s' : inv c s -> (c_start c <= s_t s)%num -> pop (s_q s) = Some (e, q) -> treat c exps chs sa sd dt w s e q = Ok s' -> (s_t s' < c_end c)%num -> mu (s_q s') < mu (s_q s).
Proof.
  intros HV H0 Ep E Ht. assert (HT := E). apply (treat_inv c exps chs HI HD HE) in HT; [|exact HV|exact Ep]. destruct HT as (_ & HT & HT0 & _). rewrite HT in *. rewrite (mu_perm _ _ (pop_perm _ _ _ Ep)), mu_cons. unfold treat in E. cbv zeta in E. destruct e as [t i|t i p]; cbn [ev_time] in *.
  - destruct (activation_time_inv c s t i q HV Ep) as (H1 & Hi & _). unfold activate in E. destruct (put_activation c exps (with_time s t q) i) as [s1| |] eqn:E1; cbn [bind] in E; try discriminate.
    assert (HM := activation_mu (with_time s t q) i s1 Hi (Qcle_trans _ _ _ H0 HT0) Ht E1). apply (put_activation_inv c exps HD HE) in E1; [|exact Hi|exact H1]. destruct (interact_times c exps chs (c_num c) w s1 i) as [s2| |] eqn:E2; cbn [bind] in E; try discriminate.
    apply interact_times_mu in E2; [|tauto|exact Hi]. injection E as <-. rewrite save_queue. cbn [s_t s_q with_time] in HM. unfold weight at 1. lia.
  - unfold finish in E. destruct (wrap (size c) i), (wrap (size c) p); cbn [bind] in E; try discriminate. injection E as <-. rewrite save_queue. cbn [s_q with_contact with_time weight]. lia.
Qed.
Lemma advance_evt sa sd dt : forall M s, inv c s -> (c_start c <= s_t s)%num -> mu (s_q s) < M -> exists fuel, evt (fun w => advance c exps chs sa sd dt fuel w s).
Proof.
  induction M as [|M IH]; intros s HV H0 HM; [lia|]. destruct (qltb_spec (s_t s) (c_end c)) as [Ht|Ht]; [|exists 1, 0; cbn [advance]; destruct (qltb_spec (s_t s) (c_end c)); [contradiction|discriminate]].
  destruct (pop (s_q s)) as [[e q]|] eqn:Ep; [|exists 1, 0; cbn [advance]; rewrite Ep; destruct (qltb _ _); discriminate].
  destruct (treat_evt sa sd dt s e q HV Ep) as (w0 & Hw0). destruct (treat c exps chs sa sd dt w0 s e q) as [s1| |] eqn:E1; [| |now elim Hw0].
  - assert (HT := E1). apply (treat_inv c exps chs HI HD HE) in HT; [|exact HV|exact Ep]. destruct HT as (H1 & _ & HT & _).
    assert (Hx : exists fuel, evt (fun w => advance c exps chs sa sd dt fuel w s1)).
    { destruct (qltb_spec (s_t s1) (c_end c)) as [Ht1|Ht1].
      - apply IH; [exact H1|eapply Qcle_trans; eassumption|]. assert (HL := treat_mu sa sd dt w0 s e q s1 HV H0 Ep E1 Ht1). lia.
      - exists 1, 0. cbn [advance]. destruct (qltb_spec (s_t s1) (c_end c)); [contradiction|discriminate]. }
    destruct Hx as (f & w1 & Hw1). exists (S f), (max w0 w1). cbn [advance]. destruct (qltb_spec (s_t s) (c_end c)); [|contradiction]. rewrite Ep. destruct (treat_more c exps chs sa sd dt w0 (max w0 w1) s e q ltac:(lia)) as [E|E]; [congruence|]. rewrite <- E, E1. cbn [bind].
    destruct (advance_more c exps chs sa sd dt f w1 (max w0 w1) ltac:(lia) s1) as [E'|E']; [congruence|]. now rewrite <- E'.
  - exists 1, w0. cbn [advance]. destruct (qltb _ _); [|discriminate]. rewrite Ep, E1. discriminate.
Qed.
Lemma initialize_not_loop l : forall s, initialize c exps l s <> Loop.
Proof. induction l as [|i l IH]; intros s; cbn [initialize]; [discriminate|]. destruct (put_activation c exps s i) as [s1| |] eqn:E; cbn [bind]; [apply IH|discriminate|now apply put_activation_not_loop in E]. Qed.
Lemma simulate_evt sa sd dt : exists fuel, evt (fun w => simulate c exps chs sa sd dt fuel w).
Proof.
  unfold simulate. rewrite HC. cbn [bind]. unfold run. cbv zeta.
  change (with_saved (with_time fresh (c_start c) (s_q fresh)) (s_all (with_time fresh (c_start c) (s_q fresh))) (s_saved (with_time fresh (c_start c) (s_q fresh))) (s_t (with_time fresh (c_start c) (s_q fresh)) + dt)%num)
    with (with_saved (with_time fresh (c_start c) []) [] [] (c_start c + dt)%num).
  destruct (started c exps sa sd dt) as [s0| |] eqn:E0.
  - destruct (started_inv c exps HI HD HE sa sd dt s0 E0) as (HV & _ & HT). destruct (advance_evt sa sd dt (S (mu (s_q s0))) s0 HV) as (f & w & Hw); [rewrite HT; apply Qcle_refl|lia|]. exists f, w.
    unfold started in E0. destruct (initialize _ _ _ _) as [s1| |]; cbn [bind] in *; try discriminate. injection E0 as <-. exact Hw.
  - exists 0, 0. unfold started in E0. destruct (initialize _ _ _ _) as [s1| |]; cbn [bind] in *; try discriminate.
  - unfold started in E0. destruct (initialize _ _ _ _) as [s1| |] eqn:E1; cbn [bind] in *; try discriminate. now apply initialize_not_loop in E1.
Qed.
End Ends.
