(** Lemmas for the simulation: priority queue, partners, the invariant of the loop. *)
From Verif Require Import Base SynthModel SynthSpec.
From Coq Require Import ZArith Permutation.

(** * Priority queue *)
Lemma pop_perm q : forall e r, pop q = Some (e, r) -> Permutation q (e :: r).
Proof.
  induction q as [|x q IH]; intros e r E; [discriminate|]. cbn in E. destruct (pop q) as [[m r']|] eqn:Ep.
  - specialize (IH m r' eq_refl). destruct (ev_leb x m); injection E as <- <-; [reflexivity|]. rewrite IH. apply perm_swap.
  - injection E as <- <-. destruct q as [|y q]; [reflexivity|]. cbn in Ep. destruct (pop q) as [[m r']|]; [destruct (ev_leb y m)|]; discriminate.
Qed.
Lemma pop_none q : pop q = None -> q = [].
Proof. destruct q as [|x q]; [reflexivity|]. cbn. destruct (pop q) as [[m r']|]; [destruct (ev_leb x m)|]; discriminate. Qed.
Lemma ev_leb_time a b : ev_leb a b = true -> (ev_time a <= ev_time b)%num.
Proof. unfold ev_leb. destruct (qltb_spec (ev_time a) (ev_time b)) as [H|H]; [intros _; now apply Qclt_le_weak|]. destruct (qltb_spec (ev_time b) (ev_time a)) as [H'|H']; [discriminate|]. intros _. now apply Qcnot_lt_le. Qed.
Lemma ev_leb_false a b : ev_leb a b = false -> (ev_time b <= ev_time a)%num.
Proof. unfold ev_leb. destruct (qltb_spec (ev_time a) (ev_time b)) as [H|H]; [discriminate|]. intros _. now apply Qcnot_lt_le. Qed.
Lemma pop_least q : forall e r, pop q = Some (e, r) -> forall x, In x q -> (ev_time e <= ev_time x)%num.
Proof.
  induction q as [|y q IH]; intros e r E x Hx; [destruct Hx|]. cbn in E. destruct (pop q) as [[m r']|] eqn:Ep.
  - specialize (IH m r' eq_refl). destruct (ev_leb y m) eqn:El; injection E as <- <-; destruct Hx as [<-|Hx].
    + apply Qcle_refl.
    + eapply Qcle_trans; [exact (ev_leb_time _ _ El)|now apply IH].
    + now apply ev_leb_false.
    + now apply IH.
  - injection E as <- <-. apply pop_none in Ep. subst q. destruct Hx as [<-|[]]. apply Qcle_refl.
Qed.

Definition inters (q : list ev) : list (Z * Z) := flat_map (fun e => match e with Act _ _ => [] | Int _ i p => [(i, p)] end) q.
Lemma inters_in q i p : In (i, p) (inters q) <-> exists t, In (Int t i p) q.
Proof.
  unfold inters. rewrite in_flat_map. split.
  - intros (e & He & Hi). destruct e as [t a|t a b]; [destruct Hi|]. destruct Hi as [E|[]]. injection E as -> ->. now exists t.
  - intros (t & Ht). exists (Int t i p). split; [exact Ht|now left].
Qed.
Lemma inters_perm q q' : Permutation q q' -> Permutation (inters q) (inters q').
Proof. intros H. unfold inters. now apply Permutation_flat_map. Qed.

(** * Indices *)
Definition rng (n : nat) (z : Z) : Prop := (0 <= z < Z.of_nat n)%Z.
Lemma wrap_rng n z : rng n z -> wrap n z = Some (Z.to_nat z).
Proof. intros [H1 H2]. unfold wrap. destruct (Z.leb_spec 0 z); [|lia]. destruct (Z.ltb_spec z (Z.of_nat n)); [reflexivity|lia]. Qed.
Lemma wrap_lt n z k : wrap n z = Some k -> k < n.
Proof.
  unfold wrap. destruct (Z.leb_spec 0 z), (Z.ltb_spec z (Z.of_nat n)); cbn; try (intros E; injection E as <-; lia);
  destruct (Z.leb_spec (- Z.of_nat n) z), (Z.ltb_spec z 0); cbn; intros E; try discriminate; injection E as <-; lia.
Qed.
Lemma rng_of n k : k < n -> rng n (Z.of_nat k).
Proof. unfold rng. lia. Qed.
Lemma rng_nat n z : rng n z -> Z.of_nat (Z.to_nat z) = z /\ Z.to_nat z < n.
Proof. unfold rng. lia. Qed.
Lemma zmem_in z l : zmem z l = true <-> In z l.
Proof.
  unfold zmem. rewrite existsb_exists. split; [intros (x & Hx & E); apply Z.eqb_eq in E; now subst|intros H; exists z; split; [exact H|apply Z.eqb_refl]].
Qed.
Lemma zmem_false z l : zmem z l = false <-> ~ In z l.
Proof. rewrite <- zmem_in. destruct (zmem z l); split; congruence. Qed.
Lemma set2_same {B} (f : nat -> nat -> B) a b v : set2 f a b v a b = v.
Proof. unfold set2. now rewrite !Nat.eqb_refl. Qed.
Lemma set2_other {B} (f : nat -> nat -> B) a b v i j : (i, j) <> (a, b) -> set2 f a b v i j = f i j.
Proof. intros H. unfold set2. destruct (Nat.eqb_spec i a), (Nat.eqb_spec j b); try reflexivity. subst. now elim H. Qed.
Lemma set2_cases {B} (f : nat -> nat -> B) a b v i j : (i = a /\ j = b /\ set2 f a b v i j = v) \/ ((i, j) <> (a, b) /\ set2 f a b v i j = f i j).
Proof. destruct (Nat.eq_dec i a) as [->|Hi]; [destruct (Nat.eq_dec j b) as [->|Hj]|]; [left; auto using set2_same|right|right]; (split; [congruence|apply set2_other; congruence]). Qed.

(** * Partners *)
Section Partners.
Context (c : config) (chs : nat -> nat).
Definition ids_rng : Prop := forall z, In z (ids c) -> rng (size c) z.
Lemma reject_spec w : forall k pot un z k', reject chs w k pot un = Ok (z, k') -> In z pot /\ ~ In z un.
Proof.
  induction w as [|w IH]; intros k pot un z k' E; [discriminate|]. cbn [reject] in E. destruct pot as [|x pot]; [discriminate|]. set (pt := x :: pot) in *. cbv zeta in E.
  destruct (zmem (nth (chs k mod length pt) pt 0%Z) un) eqn:Em; [now apply IH in E|]. assert (Ez : z = nth (chs k mod length pt) pt 0%Z) by congruence. subst z. split; [|now apply zmem_false].
  apply nth_In. apply Nat.mod_upper_bound. discriminate.
Qed.
Lemma pick_unless_spec stop w s pot un r s' : pick_unless chs stop w s pot un = Ok (r, s') ->
  (exists nc, s' = with_choices s nc) /\ forall p, r = Some p -> In p pot /\ ~ In p un.
Proof.
  unfold pick_unless. destruct stop.
  - intros E. injection E as <- <-. split; [exists (s_nc s); now destruct s|discriminate].
  - destruct (reject chs w (s_nc s) pot un) as [[z k']| |] eqn:E; cbn; try discriminate. intros E'. injection E' as <- <-. split; [now exists k'|]. intros p Ep. injection Ep as <-. now apply reject_spec in E.
Qed.
Lemma group_rng g z : In z (group_to_ids c g) -> rng (size c) z /\ group_at c (Z.to_nat z) = g.
Proof.
  unfold group_to_ids. rewrite in_map_iff. intros (k & <- & Hk). apply filter_In in Hk. destruct Hk as [Hk Hg]. apply in_seq in Hk. split; [unfold rng; lia|]. rewrite Nat2Z.id. now apply Z.eqb_eq.
Qed.
Lemma not_un s i k z : ~ In z (un_partners c s i k) -> rng (size c) z -> z <> i /\ s_A s k (Z.to_nat z) = false.
Proof.
  intros Hz HR. unfold un_partners in Hz. split; [intros ->; apply Hz; now left|]. destruct (s_A s k (Z.to_nat z)) eqn:E; [|reflexivity]. exfalso. apply Hz. right.
  destruct (rng_nat _ _ HR) as [H1 H2]. rewrite <- H1. apply in_map, filter_In. split; [apply in_seq; lia|exact E].
Qed.
(** what the method says about the new partner *)
Definition chosen (t : num) (i p : Z) : Prop :=
  let g := group_at c (Z.to_nat i) in let h := group_at c (Z.to_nat p) in
  match c_method c with
  | Uniform => True
  | WithinGroup => g = h
  | Block P => exists row b, row_at (normalized P) g = Some (Some row) /\ (0 < nth b row 0)%num /\ h = Z.of_nat b
  | BlockMod f => exists row b, row_at (f t) g = Some row /\ (0 < nth b row 0)%num /\ h = Z.of_nat b
  | Other => False
  end.
Lemma choice_spec k p g : choice_p c chs k p = Ok g -> (0 < nth g p 0)%num.
Proof.
  unfold choice_p. destruct (negb _); [discriminate|]. destruct (existsb _ _); [discriminate|]. destruct (qltb _ _); [discriminate|].
  destruct (filter (fun g => qltb 0 (nth g p 0%num)) (seq 0 (num_groups c))) as [|x l] eqn:E; [discriminate|]. set (pos := x :: l) in *. intros Eg. assert (Ez : g = nth (chs k mod length pos) pos 0) by congruence. subst g.
  assert (Hin : In (nth (chs k mod length pos) pos 0) pos) by (apply nth_In, Nat.mod_upper_bound; discriminate).
  rewrite <- E in Hin. apply filter_In in Hin. destruct Hin as [_ Hin]. fold pos in E. rewrite E in Hin. now destruct (qltb_spec 0%num (nth (nth (chs k mod length pos) pos 0) p 0%num)).
Qed.
Lemma pick_block_spec w s i k row r s' : pick_block c chs w s i k row = Ok (r, s') ->
  (exists nc, s' = with_choices s nc) /\ forall p, r = Some p -> exists rw b, row = Some rw /\ (0 < nth b rw 0)%num /\ In p (group_to_ids c (Z.of_nat b)) /\ ~ In p (un_partners c s i k).
Proof.
  unfold pick_block. destruct row as [p|]; [|discriminate]. destruct (qeqb _ _).
  - intros E. injection E as <- <-. split; [exists (s_nc s); now destruct s|discriminate].
  - destruct (choice_p c chs (s_nc s) p) as [g| |] eqn:Eg; cbn [bind]; try discriminate. cbv zeta. destruct (group_to_ids c (Z.of_nat g)) as [|x l] eqn:El; [discriminate|]. intros E.
    apply pick_unless_spec in E. destruct E as [(nc & ->) HP]. split; [now exists nc|]. intros q Hq. destruct (HP q Hq) as [H1 H2]. exists p, g. split; [reflexivity|]. split; [now apply choice_spec in Eg|]. split; [now rewrite El|exact H2].
Qed.
Lemma new_partner_spec w s i r s' : ids_rng -> rng (size c) i -> new_partner c chs w s i = Ok (r, s') ->
  (exists nc, s' = with_choices s nc) /\ forall p, r = Some p -> rng (size c) p /\ p <> i /\ s_A s (Z.to_nat i) (Z.to_nat p) = false /\ chosen (s_t s) i p.
Proof.
  intros HI Hi. unfold new_partner. rewrite (wrap_rng _ _ Hi). cbv zeta. unfold chosen. destruct (c_method c) as [| |P|f|].
  - intros E. apply pick_unless_spec in E. destruct E as [H1 H2]. split; [exact H1|]. intros p Hp. destruct (H2 p Hp) as [H3 H4]. assert (HR := HI p H3). destruct (not_un _ _ _ _ H4 HR). tauto.
  - destruct (group_to_ids c (group_at c (Z.to_nat i))) as [|x l] eqn:El; [discriminate|]. intros E. apply pick_unless_spec in E. destruct E as [H1 H2]. split; [exact H1|]. intros p Hp. destruct (H2 p Hp) as [H3 H4].
    rewrite <- El in H3. apply group_rng in H3. destruct H3 as [HR HG]. destruct (not_un _ _ _ _ H4 HR). symmetry in HG. tauto.
  - destruct (row_at (normalized P) (group_at c (Z.to_nat i))) as [row|] eqn:Er; [|discriminate]. intros E. apply pick_block_spec in E. destruct E as [H1 H2]. split; [exact H1|]. intros p Hp. destruct (H2 p Hp) as (rw & b & Hw & Hb & H3 & H4). subst row.
    apply group_rng in H3. destruct H3 as [HR HG]. destruct (not_un _ _ _ _ H4 HR). split; [exact HR|]. split; [assumption|]. split; [assumption|]. now exists rw, b.
  - destruct (row_at (f (s_t s)) (group_at c (Z.to_nat i))) as [row|] eqn:Er; [|discriminate]. intros E. apply pick_block_spec in E. destruct E as [H1 H2]. split; [exact H1|]. intros p Hp. destruct (H2 p Hp) as (rw & b & Hw & Hb & H3 & H4). injection Hw as <-.
    apply group_rng in H3. destruct H3 as [HR HG]. destruct (not_un _ _ _ _ H4 HR). split; [exact HR|]. split; [assumption|]. split; [assumption|]. now exists row, b.
  - discriminate.
Qed.
End Partners.

(** * The invariant *)
Section Invariant.
Context (c : config) (exps : nat -> num) (chs : nat -> nat).
Context (HI : ids_rng c) (HD : delays_ok c) (HE : exponentials exps).
Notation n := (size c).

(** a saved matrix against the recorded and the open contacts *)
Definition saved_ok (s : state) (x : num * (nat -> nat -> bool)) : Prop :=
  (fst x <= s_t s)%num /\
  (forall r, In r (s_rec s) -> (start_time r < fst x)%num -> (fst x < end_time r)%num -> snd x (Z.to_nat (source r)) (Z.to_nat (target r)) = true) /\
  (forall a b, snd x a b = true -> (exists r, In r (s_rec s) /\ source r = Z.of_nat a /\ target r = Z.of_nat b /\ (start_time r <= fst x)%num /\ (fst x <= end_time r)%num) \/ (s_A s a b = true /\ (s_last s a b <= fst x)%num)) /\
  (forall a b, s_A s a b = true -> (s_last s a b < fst x)%num -> snd x a b = true).
Record inv (s : state) : Prop := {
  v_time : forall e, In e (s_q s) -> (s_t s <= ev_time e)%num;
  v_ids : forall e, In e (s_q s) -> rng n (ev_id e);
  v_int : forall t i p, In (Int t i p) (s_q s) -> rng n p /\ i <> p /\ s_A s (Z.to_nat i) (Z.to_nat p) = true;
  v_nodup : NoDup (inters (s_q s));
  v_open : forall a b, s_A s a b = true -> In (Z.of_nat a, Z.of_nat b) (inters (s_q s)) /\ (s_last s a b <= s_t s)%num /\ chosen c (s_last s a b) (Z.of_nat a) (Z.of_nat b);
  v_rec : forall r, In r (s_rec s) -> rng n (source r) /\ rng n (target r) /\ source r <> target r /\ (start_time r <= end_time r)%num /\ (end_time r <= s_t s)%num /\
     chosen c (start_time r) (source r) (target r) /\ (s_A s (Z.to_nat (source r)) (Z.to_nat (target r)) = true -> (end_time r <= s_last s (Z.to_nat (source r)) (Z.to_nat (target r)))%num);
  v_order : in_order_of_end (s_rec s);
  v_overlap : no_overlap (s_rec s);
  v_saved : forall x, In x (s_all s) \/ In x (s_saved s) -> saved_ok s x }.

Lemma draw_nonneg f t x d : (0 <= fst (f t))%num -> (0 <= x)%num -> draw f t x = Ok d -> (0 <= d)%num.
Proof.
  unfold draw. destruct (f t) as [loc scale]. cbn [fst]. intros HL Hx. destruct (qleb_spec scale 0%num) as [H|H]; [discriminate|]. intros E. injection E as <-. apply Qcnot_le_lt in H.
  assert (H1 := qmult_nonneg scale x (Qclt_le_weak _ _ H) Hx). revert HL H1. generalize (scale * x)%num. clear. qlra.
Qed.
Lemma put_activation_some s i s' : put_activation c exps s i = Ok s' -> exists d, (0 <= d)%num /\ s' = with_queue s (Act (s_t s + d) i :: s_q s) (S (s_ne s)).
Proof.
  unfold put_activation. destruct (wrap n i) as [k|]; [|discriminate]. destruct (nth_error (c_inds c) k) as [ind|] eqn:Ek; [|discriminate]. destruct (draw _ _ _) as [d| |] eqn:Ed; cbn; try discriminate. intros E. injection E as <-.
  exists d. split; [|reflexivity]. apply draw_nonneg in Ed; [exact Ed|apply HD; now apply nth_error_In in Ek|apply HE].
Qed.
Lemma put_interaction_some s i p s' : put_interaction c exps s i p = Ok s' -> exists d, (0 <= d)%num /\ s' = with_queue s (Int (s_t s + d) i p :: s_q s) (S (s_ne s)).
Proof.
  unfold put_interaction. destruct (wrap n i) as [k|]; [|discriminate]. destruct (nth_error (c_inds c) k) as [ind|] eqn:Ek; [|discriminate]. destruct (draw _ _ _) as [d| |] eqn:Ed; cbn; try discriminate. intros E. injection E as <-.
  exists d. split; [|reflexivity]. apply draw_nonneg in Ed; [exact Ed|apply HD; now apply nth_error_In in Ek|apply HE].
Qed.
Lemma later t d : (0 <= d)%num -> (t <= t + d)%num.
Proof. qlra. Qed.

Lemma put_activation_inv s i s' : rng n i -> inv s -> put_activation c exps s i = Ok s' -> inv s' /\ s_rec s' = s_rec s /\ s_t s' = s_t s.
Proof.
  intros Hi [] E. apply put_activation_some in E. destruct E as (d & Hd & ->). split; [|split; reflexivity]. constructor; cbn; try assumption.
  - intros e [<-|He]; [now apply later|auto].
  - intros e [<-|He]; [exact Hi|auto].
  - intros t a p [He|He]; [discriminate|eauto].
Qed.
Lemma with_choices_inv s nc : inv s -> inv (with_choices s nc).
Proof. intros []. constructor; cbn; assumption. Qed.

Lemma interact_inv w s i s' : rng n i -> inv s -> interact c exps chs w s i = Ok s' -> inv s' /\ s_rec s' = s_rec s /\ s_t s' = s_t s.
Proof.
  intros Hi HV E. unfold interact in E. destruct (new_partner c chs w s i) as [[r s1]| |] eqn:EN; cbn [bind] in E; try discriminate. cbn [fst snd] in E.
  apply new_partner_spec in EN; [|exact HI|exact Hi]. destruct EN as [(nc & ->) HP]. destruct r as [p|]; [|injection E as <-; split; [now apply with_choices_inv|split; reflexivity]].
  destruct (HP p eq_refl) as (Hp & Hne & HA & HC). rewrite (wrap_rng _ _ Hi), (wrap_rng _ _ Hp) in E. apply put_interaction_some in E. destruct E as (d & Hd & ->). split; [|split; reflexivity].
  destruct (rng_nat _ _ Hi) as [Ei Li]. destruct (rng_nat _ _ Hp) as [Ep Lp]. set (a := Z.to_nat i) in *. set (b := Z.to_nat p) in *. destruct HV. cbn. constructor; cbn.
  - intros e [<-|He]; [now apply later|auto].
  - intros e [<-|He]; [exact Hi|auto].
  - intros t j q [E|He].
    + injection E as _ <- <-. split; [exact Hp|]. split; [congruence|]. apply set2_same.
    + destruct (v_int0 t j q He) as (H1 & H2 & H3). split; [exact H1|]. split; [exact H2|]. destruct (set2_cases (s_A s) a b true (Z.to_nat j) (Z.to_nat q)) as [(_ & _ & E)|[_ E]]; rewrite E; auto.
  - constructor; [|exact v_nodup0]. intros Hin. apply inters_in in Hin. destruct Hin as (t & Ht). destruct (v_int0 t i p Ht) as (_ & _ & H). fold a b in H. congruence.
  - intros x y Hxy. destruct (set2_cases (s_A s) a b true x y) as [(-> & -> & _)|[Hne' E]].
    + rewrite set2_same. rewrite Ei, Ep. split; [now left|]. split; [apply Qcle_refl|exact HC].
    + rewrite E in Hxy. rewrite set2_other by exact Hne'. destruct (v_open0 x y Hxy) as (H1 & H2 & H3). auto.
  - intros r Hr. destruct (v_rec0 r Hr) as (H1 & H2 & H3 & H4 & H5 & H6 & H7). split; [exact H1|]. split; [exact H2|]. split; [exact H3|]. split; [exact H4|]. split; [exact H5|]. split; [exact H6|].
    destruct (set2_cases (s_A s) a b true (Z.to_nat (source r)) (Z.to_nat (target r))) as [(Ea & Eb & _)|[Hne' E]].
    + intros _. rewrite Ea, Eb, set2_same. exact H5.
    + rewrite E, set2_other by exact Hne'. exact H7.
  - exact v_order0.
  - exact v_overlap0.
  - intros x Hx. destruct (v_saved0 x Hx) as (H1 & H2 & H3 & H4). split; [exact H1|]. split; [exact H2|]. cbn. split.
    + intros u v Huv. destruct (H3 u v Huv) as [H|[H H']]; [now left|]. right. destruct (set2_cases (s_A s) a b true u v) as [(-> & -> & _)|[Hne' E]]; [congruence|]. rewrite E, set2_other by exact Hne'. now split.
    + intros u v Huv HL. destruct (set2_cases (s_A s) a b true u v) as [(-> & -> & _)|[Hne' E]].
      * rewrite set2_same in HL. exfalso. revert H1 HL. clear. qlra.
      * rewrite E in Huv. rewrite set2_other in HL by exact Hne'. now apply H4.
Qed.
Lemma interact_times_inv m w : forall s i s', rng n i -> inv s -> interact_times c exps chs m w s i = Ok s' -> inv s' /\ s_rec s' = s_rec s /\ s_t s' = s_t s.
Proof.
  induction m as [|m IH]; intros s i s' Hi HV E; cbn in E; [injection E as <-; auto|].
  destruct (interact c exps chs w s i) as [s1| |] eqn:E1; cbn in E; try discriminate. apply interact_inv in E1; [|exact Hi|exact HV]. destruct E1 as (H1 & H2 & H3). apply IH in E; [|exact Hi|exact H1]. destruct E as (H4 & H5 & H6). split; [exact H4|split; congruence].
Qed.

Lemma saved_later s t q x : (s_t s <= t)%num -> saved_ok s x -> saved_ok (with_time s t q) x.
Proof. intros Ht (H1 & H2). split; [cbn; eapply Qcle_trans; eassumption|exact H2]. Qed.
Lemma activation_time_inv s t i q : inv s -> pop (s_q s) = Some (Act t i, q) -> inv (with_time s t q) /\ rng n i /\ (s_t s <= t)%num.
Proof.
  intros HV Ep. assert (HP := pop_perm _ _ _ Ep). assert (HL := pop_least _ _ _ Ep). cbn [ev_time] in HL. destruct HV.
  assert (Hin : forall e, In e q -> In e (s_q s)) by (intros e He; apply (Permutation_in _ (Permutation_sym HP)); now right).
  assert (H0 : In (Act t i) (s_q s)) by (apply (Permutation_in _ (Permutation_sym HP)); now left). assert (Ht := v_time0 _ H0). cbn in Ht.
  split; [|split; [exact (v_ids0 _ H0)|exact Ht]]. assert (HQ := inters_perm _ _ HP). change (inters (Act t i :: q)) with (inters q) in HQ. constructor; cbn.
  - intros e He. apply HL. now apply Hin.
  - intros e He. apply v_ids0. now apply Hin.
  - intros t' a b He. apply (v_int0 t'). now apply Hin.
  - now apply (Permutation_NoDup HQ).
  - intros a b Hab. destruct (v_open0 a b Hab) as (H1 & H2 & H3). split; [now apply (Permutation_in _ HQ)|]. split; [eapply Qcle_trans; eassumption|exact H3].
  - intros r Hr. destruct (v_rec0 r Hr) as (H1 & H2 & H3 & H4 & H5 & H6 & H7). repeat split; try assumption; try apply H1; try apply H2. eapply Qcle_trans; eassumption.
  - exact v_order0.
  - exact v_overlap0.
  - intros x Hx. now apply saved_later, v_saved0.
Qed.
Lemma nth_error_snoc {A} (l : list A) x k y : nth_error (l ++ [x]) k = Some y -> nth_error l k = Some y \/ (k = length l /\ y = x).
Proof.
  intros H. destruct (Nat.lt_ge_cases k (length l)) as [L|L]; [left; now rewrite nth_error_app1 in H|]. right. rewrite nth_error_app2 in H by exact L.
  destruct (k - length l) as [|d] eqn:E; [|destruct d; discriminate]. split; [lia|]. now injection H as <-.
Qed.
Lemma finish_inv s t i p q s' : inv s -> pop (s_q s) = Some (Int t i p, q) -> finish c (with_time s t q) i p = Ok s' ->
  inv s' /\ s_t s' = t /\ (s_t s <= t)%num /\ exists r, s_rec s' = s_rec s ++ [r] /\ end_time r = t.
Proof.
  intros HV Ep E. assert (HP := pop_perm _ _ _ Ep). assert (HL := pop_least _ _ _ Ep). cbn [ev_time] in HL. destruct HV.
  assert (Hin : forall e, In e q -> In e (s_q s)) by (intros e He; apply (Permutation_in _ (Permutation_sym HP)); now right).
  assert (H0 : In (Int t i p) (s_q s)) by (apply (Permutation_in _ (Permutation_sym HP)); now left). assert (Ht := v_time0 _ H0). cbn in Ht.
  assert (Hi := v_ids0 _ H0). cbn in Hi. destruct (v_int0 _ _ _ H0) as (Hp & Hne & HA). assert (HQ := inters_perm _ _ HP). change (inters (Int t i p :: q)) with ((i, p) :: inters q) in HQ.
  unfold finish in E. rewrite (wrap_rng _ _ Hi), (wrap_rng _ _ Hp) in E. injection E as <-. destruct (rng_nat _ _ Hi) as [Ei Li]. destruct (rng_nat _ _ Hp) as [Eb Lp]. set (a := Z.to_nat i) in *. set (b := Z.to_nat p) in *.
  assert (HN := Permutation_NoDup HQ v_nodup0). inversion HN as [|x l HNi HNq]. subst x l.
  destruct (v_open0 a b HA) as (_ & HLa & HCa). rewrite Ei, Eb in HCa. set (r0 := {| source := i; target := p; start_time := s_last s a b; end_time := t |}).
  split; [|split; [reflexivity|split; [exact Ht|exists r0; split; reflexivity]]]. cbn. fold r0. constructor; cbn.
  - intros e He. apply HL. now apply Hin.
  - intros e He. apply v_ids0. now apply Hin.
  - intros t' j k He. destruct (v_int0 t' j k (Hin _ He)) as (H1 & H2 & H3). split; [exact H1|]. split; [exact H2|]. rewrite set2_other; [exact H3|].
    intros E. injection E as E1 E2. apply HNi. apply inters_in. exists t'. assert (Hj := v_ids0 _ (Hin _ He)). cbn in Hj. destruct (rng_nat _ _ Hj) as [Ej _]. destruct (rng_nat _ _ H1) as [Ek _].
    replace i with j by (rewrite <- Ei, <- Ej; now rewrite E1). replace p with k by (rewrite <- Eb, <- Ek; now rewrite E2). exact He.
  - exact HNq.
  - intros x y Hxy. destruct (set2_cases (s_A s) a b false x y) as [(_ & _ & E)|[Hne' E]]; [congruence|]. rewrite E in Hxy. rewrite set2_other by exact Hne'. destruct (v_open0 x y Hxy) as (H1 & H2 & H3).
    split; [|split; [eapply Qcle_trans; eassumption|exact H3]]. apply (Permutation_in _ HQ) in H1. destruct H1 as [E1|H1]; [|exact H1]. exfalso. apply Hne'. injection E1 as E1 E2. unfold a, b. rewrite E1, E2, !Nat2Z.id. reflexivity.
  - intros r Hr. apply in_app_or in Hr. destruct Hr as [Hr|[<-|[]]].
    + destruct (v_rec0 r Hr) as (H1 & H2 & H3 & H4 & H5 & H6 & H7). split; [exact H1|]. split; [exact H2|]. split; [exact H3|]. split; [exact H4|]. split; [eapply Qcle_trans; eassumption|]. split; [exact H6|].
      destruct (set2_cases (s_A s) a b false (Z.to_nat (source r)) (Z.to_nat (target r))) as [(_ & _ & E)|[Hne' E]]; rewrite E; [discriminate|]. rewrite set2_other by exact Hne'. exact H7.
    + cbn. split; [exact Hi|]. split; [exact Hp|]. split; [exact Hne|]. split; [eapply Qcle_trans; eassumption|]. split; [apply Qcle_refl|]. split; [exact HCa|]. fold a b. rewrite set2_same. discriminate.
  - intros x y r r' Hxy Hx Hy. apply nth_error_snoc in Hx. apply nth_error_snoc in Hy. destruct Hy as [Hy|[-> ->]].
    + destruct Hx as [Hx|[-> _]]; [now apply (v_order0 x y)|]. assert (HYL : y < length (s_rec s)) by (apply nth_error_Some; congruence). lia.
    + destruct Hx as [Hx|[-> _]]; [|lia]. cbn. apply nth_error_In in Hx. destruct (v_rec0 r Hx) as (_ & _ & _ & _ & H5 & _). eapply Qcle_trans; eassumption.
  - intros x y r r' Hxy Hx Hy Es Et. apply nth_error_snoc in Hx. apply nth_error_snoc in Hy. destruct Hy as [Hy|[-> ->]].
    + destruct Hx as [Hx|[-> _]]; [now apply (v_overlap0 x y)|]. assert (HYL : y < length (s_rec s)) by (apply nth_error_Some; congruence). lia.
    + destruct Hx as [Hx|[-> _]]; [|lia]. cbn in *. apply nth_error_In in Hx. destruct (v_rec0 r Hx) as (_ & _ & _ & _ & _ & _ & H7). rewrite Es, Et in H7. apply H7. exact HA.
  - intros x Hx. destruct (v_saved0 x Hx) as (H1 & H2 & H3 & H4). split; [cbn; eapply Qcle_trans; eassumption|]. cbn. split; [|split].
    + intros r Hr Hs He. apply in_app_or in Hr. destruct Hr as [Hr|[<-|[]]]; [now apply H2|]. cbn in *. fold a b. now apply H4.
    + intros u v Huv. destruct (H3 u v Huv) as [(r & Hr & H)|[H H']].
      * left. exists r. split; [apply in_or_app; now left|exact H].
      * destruct (set2_cases (s_A s) a b false u v) as [(-> & -> & _)|[Hne' E]].
        -- left. exists r0. split; [apply in_or_app; right; now left|]. cbn. rewrite Ei, Eb. split; [reflexivity|]. split; [reflexivity|]. split; [exact H'|eapply Qcle_trans; eassumption].
        -- right. rewrite E, set2_other by exact Hne'. now split.
    + intros u v Huv HLu. destruct (set2_cases (s_A s) a b false u v) as [(_ & _ & E)|[Hne' E]]; [congruence|]. rewrite E in Huv. rewrite set2_other in HLu by exact Hne'. now apply H4.
Qed.
Lemma saved_now s : inv s -> saved_ok s (s_t s, s_A s).
Proof.
  intros []. split; [apply Qcle_refl|]. cbn [fst snd]. split; [|split; [|auto]].
  - intros r Hr _ H. exfalso. destruct (v_rec0 r Hr) as (_ & _ & _ & _ & H5 & _). apply (Qclt_not_le _ _ H). exact H5.
  - intros a b Hab. right. split; [exact Hab|]. now apply v_open0.
Qed.
Lemma with_saved_inv s al sv bn : inv s -> (forall x, In x al \/ In x sv -> saved_ok s x) -> inv (with_saved s al sv bn).
Proof. intros [] H. constructor; cbn; try assumption. Qed.
Lemma save_inv sa sd dt prev s : inv s -> inv (save sa sd dt prev s) /\ s_rec (save sa sd dt prev s) = s_rec s /\ s_t (save sa sd dt prev s) = s_t s.
Proof.
  intros HV. assert (HN := saved_now s HV). assert (HS := v_saved s HV). unfold save. destruct (qltb prev (s_t s)); [|auto]. cbv zeta.
  assert (HA : forall x, In x (if sa then s_all s ++ [(s_t s, s_A s)] else s_all s) -> saved_ok s x).
  { destruct sa; [|auto]. intros x Hx. apply in_app_or in Hx. destruct Hx as [Hx|[<-|[]]]; auto. }
  destruct (sd && qleb (s_bin s) (s_t s)); (split; [apply with_saved_inv; [exact HV|]|split; reflexivity]).
  - intros x [Hx|Hx]; [now apply HA|]. apply in_app_or in Hx. destruct Hx as [Hx|[<-|[]]]; auto.
  - intros x [Hx|Hx]; auto.
Qed.
Lemma treat_inv sa sd dt w s e q s' : inv s -> pop (s_q s) = Some (e, q) -> treat c exps chs sa sd dt w s e q = Ok s' ->
  inv s' /\ s_t s' = ev_time e /\ (s_t s <= s_t s')%num /\ exists l, s_rec s' = s_rec s ++ l /\ length l <= 1 /\ forall r, In r l -> end_time r = s_t s'.
Proof.
  intros HV Ep E. unfold treat in E. cbv zeta in E. destruct e as [t i|t i p]; cbn [ev_time] in *.
  - destruct (activation_time_inv s t i q HV Ep) as (H1 & Hi & Ht). unfold activate in E. destruct (put_activation c exps (with_time s t q) i) as [s1| |] eqn:E1; cbn [bind] in E; try discriminate.
    apply put_activation_inv in E1; [|exact Hi|exact H1]. destruct E1 as (H2 & R2 & T2). destruct (interact_times c exps chs (c_num c) w s1 i) as [s2| |] eqn:E2; cbn [bind] in E; try discriminate.
    apply interact_times_inv in E2; [|exact Hi|exact H2]. destruct E2 as (H3 & R3 & T3). injection E as <-. destruct (save_inv sa sd dt (s_t s) s2 H3) as (H4 & R4 & T4). rewrite T4, T3, T2, R4, R3, R2. cbn.
    split; [exact H4|]. split; [reflexivity|]. split; [exact Ht|]. exists []. rewrite app_nil_r. split; [reflexivity|]. split; [cbn; lia|intros r []].
  - destruct (finish c (with_time s t q) i p) as [s1| |] eqn:E1; cbn [bind] in E; try discriminate. apply finish_inv in E1; [|exact HV|exact Ep]. destruct E1 as (H1 & T1 & Ht & r & R1 & Hr).
    injection E as <-. destruct (save_inv sa sd dt (s_t s) s1 H1) as (H4 & R4 & T4). rewrite T4, T1, R4, R1. split; [exact H4|]. split; [reflexivity|]. split; [exact Ht|].
    exists [r]. split; [reflexivity|]. split; [cbn; lia|]. intros r' [<-|[]]. congruence.
Qed.
Lemma advance_inv sa sd dt w fuel : forall s s', inv s -> advance c exps chs sa sd dt fuel w s = Ok s' ->
  inv s' /\ (s_t s <= s_t s')%num /\ exists l, s_rec s' = s_rec s ++ l /\ forall r, In r l -> (s_t s <= end_time r)%num.
Proof.
  induction fuel as [|f IH]; intros s s' HV E; [discriminate|]. cbn [advance] in E. assert (Hid : inv s /\ (s_t s <= s_t s)%num /\ exists l, s_rec s = s_rec s ++ l /\ forall r, In r l -> (s_t s <= end_time r)%num).
  { split; [exact HV|]. split; [apply Qcle_refl|]. exists []. rewrite app_nil_r. split; [reflexivity|intros r []]. }
  destruct (qltb (s_t s) (c_end c)); [|injection E as <-; exact Hid]. destruct (pop (s_q s)) as [[e q]|] eqn:Ep; [|injection E as <-; exact Hid].
  destruct (treat c exps chs sa sd dt w s e q) as [s1| |] eqn:E1; cbn [bind] in E; try discriminate. apply treat_inv in E1; [|exact HV|exact Ep]. destruct E1 as (H1 & _ & T1 & l & R1 & _ & Hl).
  apply IH in E; [|exact H1]. destruct E as (H2 & T2 & l' & R2 & Hl'). split; [exact H2|]. split; [eapply Qcle_trans; eassumption|]. exists (l ++ l'). rewrite R2, R1, app_assoc. split; [reflexivity|].
  intros r Hr. apply in_app_or in Hr. destruct Hr as [Hr|Hr]; [now rewrite (Hl r Hr)|]. eapply Qcle_trans; [exact T1|now apply Hl'].
Qed.
Lemma initialize_inv l : forall s s', (forall z, In z l -> rng n z) -> inv s -> initialize c exps l s = Ok s' -> inv s' /\ s_rec s' = s_rec s /\ s_t s' = s_t s.
Proof.
  induction l as [|i l IH]; intros s s' Hl HV E; cbn in E; [injection E as <-; auto|]. destruct (put_activation c exps s i) as [s1| |] eqn:E1; cbn [bind] in E; try discriminate.
  apply put_activation_inv in E1; [|apply Hl; now left|exact HV]. destruct E1 as (H1 & R1 & T1). apply IH in E; [|intros z Hz; apply Hl; now right|exact H1]. destruct E as (H2 & R2 & T2). split; [exact H2|split; congruence].
Qed.
Lemma fresh_inv t bn : inv (with_saved (with_time fresh t []) [] [] bn).
Proof.
  constructor; cbn; try (intros; contradiction); try discriminate.
  - constructor.
  - intros a b r r' _ H. destruct a; discriminate.
  - intros a b r r' _ H. destruct a; discriminate.
  - intros x [[]|[]].
Qed.
(** the state in which the loop starts *)
Definition started (sa sd : bool) (dt : num) : outcome state :=
  bind (initialize c exps (ids c) (with_saved (with_time fresh (c_start c) []) [] [] (c_start c + dt)%num)) (fun s =>
    Ok (with_saved s (if sa then [(s_t s, s_A s)] else s_all s) (if sd then [(s_t s, s_A s)] else s_saved s) (s_bin s))).
Lemma started_inv sa sd dt s : started sa sd dt = Ok s -> inv s /\ s_rec s = [] /\ s_t s = c_start c.
Proof.
  unfold started. destruct (initialize _ _ _ _) as [s1| |] eqn:E1; cbn [bind]; try discriminate. apply initialize_inv in E1; [|exact HI|apply fresh_inv]. destruct E1 as (H1 & R1 & T1).
  intros E. injection E as <-. cbn. split; [|split; [exact R1|exact T1]]. apply with_saved_inv; [exact H1|]. assert (HN := saved_now _ H1). assert (HS := v_saved _ H1).
  intros x [Hx|Hx]; [destruct sa|destruct sd]; try (destruct Hx as [<-|[]]; exact HN); apply HS; auto.
Qed.
End Invariant.
