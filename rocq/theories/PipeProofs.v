(** The steps of an analysis, from the time scales to the integrals that are clustered. *)
From Verif Require Import Base LouvainModel SparseModel EventsModel EventsSpec TransModel TransSpec MatProofs TransProofs TransProps
  FlowModel FlowSpec FlowProofs FlowGridProofs FlowProps PipeModel PipeSpec.

Lemma scale_eqb_spec a b : reflect (a = b) (scale_eqb a b).
Proof.
  destruct a as [x|], b as [y|]; cbn; try (constructor; congruence).
  destruct (qeqb_spec x y); constructor; congruence.
Qed.
Lemma valid_scale_usable x : valid_scale x = true <-> usable x.
Proof.
  destruct x as [t|]; cbn; [|tauto]. destruct (qleb_spec t 0%num) as [H|H]; cbn.
  - split; [discriminate|]. intros H1. exfalso. apply (Qcle_not_lt _ _ H H1).
  - split; [|reflexivity]. intros _. now apply Qcnot_le_lt.
Qed.
Lemma checked_spec l k k' : checked l k = Some k' <-> Forall usable l /\ k' = k.
Proof.
  unfold checked. destruct (forallb valid_scale l) eqn:E.
  - split; [|intros [_ ->]; reflexivity]. intros [= <-]. split; [|reflexivity]. apply Forall_forall. intros x Hx.
    apply valid_scale_usable. rewrite forallb_forall in E. now apply E.
  - split; [discriminate|]. intros [H _]. exfalso. rewrite <- Bool.not_true_iff_false in E. apply E. apply forallb_forall.
    intros x Hx. apply valid_scale_usable. rewrite Forall_forall in H. now apply H.
Qed.

Section Pipe.
Context (n : nat) (ts : list num)
  (lapf : option num -> option num -> option (nat * nat * list mat))
  (E : num -> mat -> mat) (P : mat -> mat).

(** the network keeps Laplacians and computes what it lacks *)
Definition net_ok (fixt : bool) (lap : nat * nat * list mat) (st : tn) : Prop :=
  t_lap st = Some lap /\ forall y s M, aget qeqb (t_inter st) y = Some (s, M) -> inter_matrices n ts E fixt y lap = Some M.
Definition has_rate (st : tn) (y : num) : Prop := exists s M, aget qeqb (t_inter st) y = Some (s, M).

Lemma compute_step fixt sp lap st y : net_ok fixt lap st -> inter_matrices n ts E fixt y lap <> None ->
  exists st', compute_inter n ts lapf E (Some y) None None fixt sp st = Some st' /\ net_ok fixt lap st' /\
    has_rate st' y /\ (forall z, has_rate st z -> has_rate st' z) /\ t_inter_lin st' = t_inter_lin st.
Proof.
  intros [Hlap Hk] Hm. unfold compute_inter, ensure_lap. rewrite Hlap. cbn [the_lamda].
  destruct (aget qeqb (t_inter st) y) as [[s M]|] eqn:EA.
  - exists st. split; [reflexivity|]. split; [now split|]. split; [now exists s, M|]. split; auto.
  - rewrite Hlap. destruct (inter_matrices n ts E fixt y lap) as [M|] eqn:EM; [|congruence].
    eexists. split; [reflexivity|]. split; [|split; [|split; [|reflexivity]]].
    + split; [exact Hlap|]. cbn [t_inter set_inter]. intros z s M' HG.
      destruct (qeqb_spec z y) as [->|Hne].
      * rewrite (aget_aset_same qeqb qeqb_spec) in HG. injection HG as <- <-. exact EM.
      * rewrite (aget_aset_other qeqb qeqb_spec) in HG by exact Hne. now apply Hk in HG.
    + exists sp, M. cbn [t_inter set_inter]. apply (aget_aset_same qeqb qeqb_spec).
    + intros z [s [M' HG]]. destruct (qeqb_spec z y) as [->|Hne]; [congruence|]. exists s, M'.
      cbn [t_inter set_inter]. now rewrite (aget_aset_other qeqb qeqb_spec).
Qed.

Lemma inter_loop_ok k lap l : no_scale_keywords k -> (forall y, inter_matrices n ts E (k_fix k) y lap <> None) ->
  (forall x, In x l -> x <> None) -> forall s, net_ok (k_fix k) lap (s_net s) ->
  exists st, inter_loop n ts lapf E P false k l s = (with_net s st, true) /\ net_ok (k_fix k) lap st /\
    (forall t, In (Some t) l -> has_rate st (1 / t)%num) /\ (forall z, has_rate (s_net s) z -> has_rate st z).
Proof.
  intros [Hk _] Hm. induction l as [|x l IH]; intros Hl s Hs; cbn [inter_loop].
  - exists (s_net s). split; [destruct s; reflexivity|]. split; [exact Hs|]. split; [easy|auto].
  - destruct x as [t|]; [|exfalso; now apply (Hl None); [left|]]. rewrite Hk. cbn [rate]. unfold to_compute.
    destruct (compute_step (k_fix k) (k_sparse k) lap (s_net s) (1 / t)%num Hs (Hm _)) as (st & EC & Hst & Hr & Hold & _).
    rewrite EC. destruct (IH (fun x Hx => Hl x (or_intror Hx)) (with_net s st)) as (st' & EL & Hst' & Hr' & Hold').
    { exact Hst. }
    exists st'. split; [exact EL|]. split; [exact Hst'|]. cbn [s_net with_net] in Hold'. split.
    + intros u [Hu|Hu]; [injection Hu as ->; now apply Hold'|now apply Hr'].
    + intros z Hz. now apply Hold', Hold.
Qed.

(** ** Flow integrals *)
(** [d] holds, for the scales of [l], the flow integrals of this call *)
Definition holds (k : flow_kwargs) (st : tn) (rev : bool) (l : list (option num)) (d : list (option num * flow)) : Prop :=
  forall x, In x l -> exists y s M F, rate x = Some y /\ aget qeqb (t_inter st) y = Some (s, M) /\
    set_flow n ts M (density (k_p1 k)) (k_grid k) rev None = Some F /\ aget scale_eqb d x = Some F.

Lemma store_ok rev x F s : exists s', store rev x (MadeFlow F) s = (s', true) /\ s_net s' = s_net s /\ s_dir s' = s_dir s /\
  s_scales s' = s_scales s /\
  aget scale_eqb (if rev then s_bwd s' else s_fwd s') x = Some F /\
  (forall z, z <> x -> aget scale_eqb (s_bwd s') z = aget scale_eqb (s_bwd s) z /\ aget scale_eqb (s_fwd s') z = aget scale_eqb (s_fwd s) z) /\
  (if rev then s_fwd s' = s_fwd s else s_bwd s' = s_bwd s).
Proof.
  cbn [store]. destruct rev; eexists; (split; [reflexivity|]); cbn; repeat (split; [reflexivity|]);
    (split; [apply (aget_aset_same scale_eqb scale_eqb_spec)|]); (split; [|reflexivity]);
    intros z Hz; (split; [|]); (reflexivity || now apply (aget_aset_other scale_eqb scale_eqb_spec)).
Qed.

Lemma flow_scale_ok k x s l : fits n (k_p1 k) = true ->
  (exists y sp M, rate x = Some y /\ aget qeqb (t_inter (s_net s)) y = Some (sp, M) /\
    forall rev, wanted (s_dir s) rev = true -> set_flow n ts M (density (k_p1 k)) (k_grid k) rev None <> None) ->
  (wanted (s_dir s) true = true -> holds k (s_net s) true l (s_bwd s)) ->
  (wanted (s_dir s) false = true -> holds k (s_net s) false l (s_fwd s)) ->
  exists s', flow_scale n ts k x s = (s', true) /\ s_net s' = s_net s /\ s_dir s' = s_dir s /\ s_scales s' = s_scales s /\
    (wanted (s_dir s) true = true -> holds k (s_net s) true (l ++ [x]) (s_bwd s')) /\
    (wanted (s_dir s) false = true -> holds k (s_net s) false (l ++ [x]) (s_fwd s')).
Proof.
  intros Hfit (y & sp & M & Hy & HM & HF) Hb Hf. unfold flow_scale, inter_of. rewrite Hy, HM. unfold make_flow. rewrite Hfit.
  assert (Hext : forall rev d d' F, set_flow n ts M (density (k_p1 k)) (k_grid k) rev None = Some F ->
    holds k (s_net s) rev l d -> (forall z, z <> x -> aget scale_eqb d' z = aget scale_eqb d z) -> aget scale_eqb d' x = Some F ->
    holds k (s_net s) rev (l ++ [x]) d').
  { intros rev d d' F EF Hd Ho Hx z Hz. destruct (scale_eqb_spec z x) as [->|Hne].
    - exists y, sp, M, F. auto.
    - rewrite Ho by exact Hne. apply Hd. apply in_app_iff in Hz. destruct Hz as [Hz|[->|[]]]; [exact Hz|contradiction]. }
  assert (G : forall s1, s_net s1 = s_net s -> s_dir s1 = s_dir s -> s_scales s1 = s_scales s -> s_fwd s1 = s_fwd s ->
    (wanted (s_dir s) true = true -> holds k (s_net s) true (l ++ [x]) (s_bwd s1)) ->
    exists s', (if (0 <=? s_dir s)%Z then
        store false x (match set_flow n ts M (density (k_p1 k)) (k_grid k) false None with Some F => MadeFlow F | None => MadeOther end) s1
      else (s1, true)) = (s', true) /\
      s_net s' = s_net s /\ s_dir s' = s_dir s /\ s_scales s' = s_scales s /\
      (wanted (s_dir s) true = true -> holds k (s_net s) true (l ++ [x]) (s_bwd s')) /\
      (wanted (s_dir s) false = true -> holds k (s_net s) false (l ++ [x]) (s_fwd s'))).
  { intros s1 N1 D1 S1 F1 B1. destruct (0 <=? s_dir s)%Z eqn:E0.
    - destruct (set_flow n ts M (density (k_p1 k)) (k_grid k) false None) as [Ff|] eqn:Ef; [|now destruct (HF false E0)].
      destruct (store_ok false x Ff s1) as (s' & ES & N2 & D2 & S2 & HX & HO & HB). exists s'. split; [exact ES|].
      repeat (split; [congruence|]). split.
      + intros Hw. rewrite HB. now apply B1.
      + intros Hw. apply (Hext false (s_fwd s) (s_fwd s') Ff Ef (Hf Hw)); [|exact HX].
        intros z Hz. rewrite <- F1. now apply HO.
    - exists s1. repeat (split; [congruence || assumption || reflexivity|]). cbn [wanted]. rewrite E0. discriminate. }
  destruct (s_dir s <=? 0)%Z eqn:E1.
  - destruct (set_flow n ts M (density (k_p1 k)) (k_grid k) true None) as [Fb|] eqn:Eb; [|now destruct (HF true E1)].
    destruct (store_ok true x Fb s) as (s1 & ES & N1 & D1 & S1 & HX & HO & HB). rewrite ES.
    apply G; try assumption. intros Hw. apply (Hext true (s_bwd s) (s_bwd s1) Fb Eb (Hb Hw)); [|exact HX]. intros z Hz. now apply HO.
  - apply G; try reflexivity. cbn [wanted]. rewrite E1. discriminate.
Qed.

Lemma flow_loop_ok k r : fits n (k_p1 k) = true -> forall l s,
  (forall x, In x r -> exists y sp M, rate x = Some y /\ aget qeqb (t_inter (s_net s)) y = Some (sp, M) /\
    forall rev, wanted (s_dir s) rev = true -> set_flow n ts M (density (k_p1 k)) (k_grid k) rev None <> None) ->
  (wanted (s_dir s) true = true -> holds k (s_net s) true l (s_bwd s)) ->
  (wanted (s_dir s) false = true -> holds k (s_net s) false l (s_fwd s)) ->
  exists s', flow_loop n ts k r s = (s', true) /\ s_net s' = s_net s /\ s_dir s' = s_dir s /\ s_scales s' = s_scales s /\
    (wanted (s_dir s) true = true -> holds k (s_net s) true (l ++ r) (s_bwd s')) /\
    (wanted (s_dir s) false = true -> holds k (s_net s) false (l ++ r) (s_fwd s')).
Proof.
  intros Hfit. induction r as [|x r IH]; intros l s Hr Hb Hf; cbn [flow_loop].
  - exists s. rewrite app_nil_r. repeat (split; [reflexivity|]). now split.
  - destruct (flow_scale_ok k x s l Hfit (Hr x (or_introl eq_refl)) Hb Hf) as (s1 & E1 & N1 & D1 & S1 & B1 & F1). rewrite E1.
    destruct (IH (l ++ [x]) s1) as (s' & E2 & N2 & D2 & S2 & B2 & F2).
    + rewrite N1, D1. intros z Hz. apply Hr. now right.
    + rewrite N1, D1. exact B1.
    + rewrite N1, D1. exact F1.
    + exists s'. split; [exact E2|]. rewrite N1, D1 in *. repeat (split; [congruence|]).
      rewrite <- app_assoc in B2, F2. now split.
Qed.

(** ** What a step that returns has done *)
Lemma store_success rev x m s s' : store rev x m s = (s', true) -> s_net s' = s_net s /\ s_dir s' = s_dir s /\ s_scales s' = s_scales s /\ m <> MadeOther.
Proof. destruct m as [F| |]; cbn; intros [= <-]; [destruct rev|]; repeat split; discriminate. Qed.
Lemma flow_scale_success k x s s' : flow_scale n ts k x s = (s', true) ->
  s_net s' = s_net s /\ s_dir s' = s_dir s /\ s_scales s' = s_scales s /\
  exists y sp M, rate x = Some y /\ aget qeqb (t_inter (s_net s)) y = Some (sp, M) /\
    forall rev, wanted (s_dir s) rev = true -> make_flow n ts M k rev <> MadeOther.
Proof.
  unfold flow_scale, inter_of. destruct (rate x) as [y|]; [|discriminate]. destruct (aget qeqb (t_inter (s_net s)) y) as [[sp M]|] eqn:EA; [|discriminate].
  intros H.
  assert (G : forall s1, (if (0 <=? s_dir s)%Z then store false x (make_flow n ts M k false) s1 else (s1, true)) = (s', true) ->
    s_net s1 = s_net s -> s_dir s1 = s_dir s -> s_scales s1 = s_scales s -> (wanted (s_dir s) true = true -> make_flow n ts M k true <> MadeOther) ->
    s_net s' = s_net s /\ s_dir s' = s_dir s /\ s_scales s' = s_scales s /\
    exists y0 sp0 M0, Some y = Some y0 /\ aget qeqb (t_inter (s_net s)) y0 = Some (sp0, M0) /\
      forall rev, wanted (s_dir s) rev = true -> make_flow n ts M0 k rev <> MadeOther).
  { intros s1 H1 N1 D1 S1 W1. destruct (0 <=? s_dir s)%Z eqn:E0.
    - apply store_success in H1. destruct H1 as (N2 & D2 & S2 & W2). repeat (split; [congruence|]). exists y, sp, M. split; [reflexivity|]. split; [exact EA|].
      intros [|] Hw; [now apply W1|exact W2].
    - injection H1 as <-. repeat (split; [assumption|]). exists y, sp, M. split; [reflexivity|]. split; [exact EA|].
      intros [|] Hw; [now apply W1|]. cbn [wanted] in Hw. congruence. }
  destruct (s_dir s <=? 0)%Z eqn:E1.
  - destruct (store true x (make_flow n ts M k true) s) as [s1 [|]] eqn:ES; [|discriminate]. apply store_success in ES. destruct ES as (N1 & D1 & S1 & W1).
    apply (G s1 H N1 D1 S1). intros _. exact W1.
  - apply (G s H); try reflexivity. cbn [wanted]. rewrite E1. discriminate.
Qed.
Lemma flow_loop_success k r : forall s s', flow_loop n ts k r s = (s', true) ->
  s_net s' = s_net s /\ s_dir s' = s_dir s /\ s_scales s' = s_scales s /\
  forall x, In x r -> exists y sp M, rate x = Some y /\ aget qeqb (t_inter (s_net s)) y = Some (sp, M) /\
    forall rev, wanted (s_dir s) rev = true -> make_flow n ts M k rev <> MadeOther.
Proof.
  induction r as [|x r IH]; cbn [flow_loop]; intros s s' H.
  - injection H as <-. repeat (split; [reflexivity|]). intros x [].
  - destruct (flow_scale n ts k x s) as [s1 [|]] eqn:E1; [|discriminate].
    apply flow_scale_success in E1. destruct E1 as (N1 & D1 & S1 & H1). destruct (IH s1 s' H) as (N2 & D2 & S2 & H2).
    repeat (split; [congruence|]). intros z [<-|Hz]; [exact H1|]. rewrite <- N1, <- D1. now apply H2.
Qed.
Lemma flow_loop_fresh k r s s' : fits n (k_p1 k) = true -> flow_loop n ts k r s = (s', true) ->
  (wanted (s_dir s) true = true -> holds k (s_net s) true r (s_bwd s')) /\
  (wanted (s_dir s) false = true -> holds k (s_net s) false r (s_fwd s')).
Proof.
  intros Hfit H. destruct (flow_loop_success k r s s' H) as (_ & _ & _ & Hr).
  destruct (flow_loop_ok k r Hfit [] s) as (s2 & E2 & _ & _ & _ & HB & HF).
  - intros x Hx. destruct (Hr x Hx) as (y & sp & M & Hy & HA & HM). exists y, sp, M. split; [exact Hy|]. split; [exact HA|].
    intros rev Hw E0. apply (HM rev Hw). unfold make_flow. now rewrite Hfit, E0.
  - intros _ x [].
  - intros _ x [].
  - rewrite H in E2. injection E2 as <-. now split.
Qed.
Lemma store_unfit k M rev x s s' : fits n (k_p1 k) = false -> store rev x (make_flow n ts M k rev) s = (s', true) -> s' = s.
Proof.
  intros Hfit. unfold make_flow. rewrite Hfit.
  destruct M as [|A M]; [discriminate|]. destruct (time_grid rev (list_reverse rev ts) (k_grid k)); [|discriminate].
  destruct ts as [|a [|b r]]; try discriminate. cbn. now intros [= <-].
Qed.
Lemma flow_loop_unfit k r : fits n (k_p1 k) = false -> forall s s', flow_loop n ts k r s = (s', true) -> s' = s.
Proof.
  intros Hfit. induction r as [|x r IH]; cbn [flow_loop]; intros s s' H; [now injection H|].
  destruct (flow_scale n ts k x s) as [s1 [|]] eqn:E1; [|discriminate].
  assert (s1 = s) as ->; [|now apply IH]. clear H. unfold flow_scale in E1. destruct (inter_of s x) as [M|]; [|discriminate].
  assert (G : forall s2, (if (0 <=? s_dir s)%Z then store false x (make_flow n ts M k false) s2 else (s2, true)) = (s1, true) -> s1 = s2).
  { intros s2 H2. destruct (0 <=? s_dir s)%Z; [|now injection H2]. now apply (store_unfit k M false x). }
  destruct (s_dir s <=? 0)%Z.
  - destruct (store true x (make_flow n ts M k true) s) as [s2 [|]] eqn:ES; [|discriminate]. apply (store_unfit k M true x) in ES; [|exact Hfit]. subst s2. now apply G.
  - now apply G.
Qed.

(** ** What is clustered *)
Lemma clustered_each s l A :
  (forall x, In x l -> wanted (s_dir s) true = true -> first_integral (s_bwd s) x = Some (A x true)) ->
  (forall x, In x l -> wanted (s_dir s) false = true -> first_integral (s_fwd s) x = Some (A x false)) ->
  clustered s l = Some (one_each (s_dir s) l A).
Proof.
  intros Hb Hf. induction l as [|x l IH]; [reflexivity|].
  cbn [clustered]. rewrite IH by (intros z Hz; (apply Hb || apply Hf); now right).
  unfold one_each. cbn [flat_map filter]. specialize (Hb x (or_introl eq_refl)). specialize (Hf x (or_introl eq_refl)).
  cbn [wanted] in *. destruct (s_dir s <=? 0)%Z; destruct (0 <=? s_dir s)%Z; rewrite ?Hb, ?Hf by reflexivity; reflexivity.
Qed.
End Pipe.

(** ** A new analysis of the whole time *)
Section Whole.
Context (n : nat) (ts : list num)
  (lapf : option num -> option num -> option (nat * nat * list mat))
  (E : num -> mat -> mat) (P : mat -> mat) (Ls : list mat).
Hypothesis HL : laplacians_ok n ts lapf.
Hypothesis HS : StronglySorted Qclt ts.
Hypothesis HE : expm_ok n E.
Hypothesis HW : whole_time ts lapf Ls.
Hypothesis Hts : 2 <= length ts.

Lemma whole_matrices fixt y : exists M, inter_matrices n ts E fixt y (0, length ts - 1, Ls) = Some M /\
  length M = length ts - 1 /\ one_per_step n 0 (length ts - 1) (fun k => E (step_length ts fixt 0 k * y)%num (nth k Ls ident)) M /\
  ((0 <= y)%num -> forall B, In B M -> stochastic n B).
Proof using HL HS HE HW Hts.
  destruct (HL None None) as (ka & kb & Ls' & EL & Hkb & HLs & Hwl). unfold whole_time in HW. rewrite HW in EL. injection EL as <- <- <-.
  destruct (inter_matrices_spec n E ts fixt y 0 (length ts - 1) Ls Hkb HLs) as (M & EM & _ & _). exists M. split; [exact EM|].
  pose proof (inter_per_step n E ts fixt y 0 (length ts - 1) Ls M HE Hkb HLs EM) as HP.
  split; [destruct HP as [_ HP]; destruct (HP ltac:(lia)) as [HP' _]; lia|]. split; [exact HP|].
  intros Hy. destruct (per_step_stochastic n 0 (length ts - 1) _ M HP) as [_ Hst]; [|exact Hst].
  intros k Hk. apply (proj1 HE); [|now apply Hwl]. apply qmult_nonneg; [|exact Hy]. apply sorted_step; [exact HS|lia].
Qed.

Lemma set_flow_whole p1 grid M rev : length M = length ts - 1 -> set_flow n ts M p1 grid rev None <> None.
Proof using HS Hts.
  intros HM. unfold set_flow. destruct (C46_computed n Dense None (Some M) p1 (Some ts) grid rev None) as [F EF].
  - cbn [given]. intros ->. cbn in HM. lia.
  - cbn. now apply increasing_sorted.
  - intros He. injection He as He. pose proof Hts as H2. rewrite He in H2. cbn in H2. lia.
  - rewrite EF. discriminate.
Qed.

Lemma inv_pos t : (0 < t)%num -> (0 <= 1 / t)%num.
Proof.
  intros Ht. apply Qclt_le_weak. unfold Qcdiv. rewrite Qcmult_1_l. now apply qinv_pos.
Qed.

Lemma analysis_ok k q l dir : no_scale_keywords k -> fits n (k_p1 q) = true -> Forall usable l -> ~ In None l ->
  exists s1 s2 s3, step_laplacians lapf (new_analysis l dir) = (s1, true) /\
    step_inter n ts lapf E P false k s1 = (s2, true) /\ step_flow n ts q s2 = (s3, true) /\
    s_scales s3 = Container l /\ s_dir s3 = dir /\
    forall t rev, In (Some t) l -> wanted dir rev = true -> exists M F,
      walk_matrices n ts E (k_fix k) Ls t M /\ length M = length ts - 1 /\ (forall B, In B M -> stochastic n B) /\
      set_flow n ts M (density (k_p1 q)) (k_grid q) rev None = Some F /\
      aget scale_eqb (if rev then s_bwd s3 else s_fwd s3) (Some t) = Some F.
Proof using HL HS HE HW Hts.
  intros Hk Hfit Hu Hnone. set (lap := (0, length ts - 1, Ls)).
  assert (E1 : step_laplacians lapf (new_analysis l dir) = (with_net (new_analysis l dir) (set_lap tn0 (Some lap)), true)).
  { unfold step_laplacians, compute_lap. unfold whole_time in HW. cbn [s_net new_analysis]. now rewrite HW. }
  eexists. rewrite E1. set (s1 := with_net _ _).
  assert (N1 : net_ok n ts E (k_fix k) lap (s_net s1)) by (split; [reflexivity|discriminate]).
  assert (Hm : forall y, inter_matrices n ts E (k_fix k) y lap <> None).
  { intros y. destruct (whole_matrices (k_fix k) y) as (M & EM & _). unfold lap. rewrite EM. discriminate. }
  destruct (inter_loop_ok n ts lapf E P k lap l Hk Hm (fun x Hx Hn => Hnone (eq_ind _ (fun z => In z l) Hx _ Hn)) s1 N1) as (st & E2 & N2 & R2 & _).
  assert (E2' : step_inter n ts lapf E P false k s1 = (with_net s1 st, true)).
  { unfold step_inter. destruct Hk as [-> Hk2].
    assert (G : inter_scales n ts lapf E P false k s1 = (with_net s1 st, true)) by exact E2.
    destruct Hk2 as [-> | ->]; exact G. }
  set (s2 := with_net s1 st) in *.
  assert (Hr : forall x, In x l -> exists y sp M, rate x = Some y /\ aget qeqb (t_inter (s_net s2)) y = Some (sp, M) /\
    forall rev, wanted (s_dir s2) rev = true -> set_flow n ts M (density (k_p1 q)) (k_grid q) rev None <> None).
  { intros x Hx. destruct x as [t|]; [|contradiction]. destruct (R2 t Hx) as (sp & M & HA). exists (1 / t)%num, sp, M.
    split; [reflexivity|]. split; [exact HA|]. intros rev _. apply set_flow_whole.
    destruct N2 as [_ N2]. apply N2 in HA. destruct (whole_matrices (k_fix k) (1 / t)%num) as (M' & EM & HLn & _). unfold lap in HA. congruence. }
  destruct (flow_loop_ok n ts q l Hfit [] s2 Hr) as (s3 & E3 & N3 & D3 & S3 & B3 & F3).
  { intros _ x []. }
  { intros _ x []. }
  exists s2, s3. split; [reflexivity|]. split; [exact E2'|].
  assert (E3' : step_flow n ts q s2 = (s3, true)) by exact E3.
  split; [exact E3'|]. split; [exact S3|]. split; [exact D3|].
  intros t rev Ht Hw.
  assert (HH : holds n ts q st rev l (if rev then s_bwd s3 else s_fwd s3)).
  { destruct rev; [apply B3|apply F3]; exact Hw. }
  destruct (HH (Some t) Ht) as (y & sp & M & F & Hy & HA & EF & HD). injection Hy as <-. exists M, F.
  destruct N2 as [_ N2]. apply N2 in HA. destruct (whole_matrices (k_fix k) (1 / t)%num) as (M' & EM & HLn & HP & Hst).
  unfold lap in HA. rewrite EM in HA. injection HA as ->.
  split; [exact HP|]. split; [exact HLn|]. split; [|now split].
  apply Hst. apply inv_pos. rewrite Forall_forall in Hu. exact (Hu _ Ht).
Qed.

Lemma analysis_average k q l dir : no_scale_keywords k -> fits n (k_p1 q) = true -> distribution_ok n (density (k_p1 q)) -> k_grid q = None ->
  Forall usable l -> ~ In None l ->
  exists s1 s2 s3 A, step_laplacians lapf (new_analysis l dir) = (s1, true) /\
    step_inter n ts lapf E P false k s1 = (s2, true) /\ step_flow n ts q s2 = (s3, true) /\
    step_louvain s3 = Some (one_each dir l A) /\
    forall t rev, In (Some t) l -> wanted dir rev = true -> exists M, walk_matrices n ts E (k_fix k) Ls t M /\
      eqm n (A (Some t) rev) (flow_average n None (Some M) (density (k_p1 q)) (Some ts) rev (length ts - 1)).
Proof using HL HS HE HW Hts.
  intros Hk Hfit Hd Hg Hu Hnone. destruct (analysis_ok k q l dir Hk Hfit Hu Hnone) as (s1 & s2 & s3 & E1 & E2 & E3 & S3 & D3 & HH).
  assert (HI : forall t rev, In (Some t) l -> wanted dir rev = true -> exists M B, walk_matrices n ts E (k_fix k) Ls t M /\
    first_integral (if rev then s_bwd s3 else s_fwd s3) (Some t) = Some B /\
    eqm n B (flow_average n None (Some M) (density (k_p1 q)) (Some ts) rev (length ts - 1))).
  { intros t rev Ht Hw. destruct (HH t rev Ht Hw) as (M & F & HP & HLn & Hst & EF & HD). rewrite Hg in EF.
    destruct (C89_whole_partial n ts M (density (k_p1 q)) rev None F) as (B & HB & HA); try assumption.
    - rewrite HLn. lia.
    - now apply increasing_sorted.
    - exists M, B. split; [exact HP|]. unfold first_integral. rewrite HD, HB. split; [reflexivity|]. now rewrite <- HLn. }
  set (A := fun x (rev : bool) => match first_integral (if rev then s_bwd s3 else s_fwd s3) x with Some B => B | None => ident end).
  exists s1, s2, s3, A. repeat (split; [assumption|]). split.
  - unfold step_louvain. rewrite S3. cbn [read_scale fst]. rewrite <- D3. apply clustered_each; rewrite D3.
    + intros x Hx Hw. destruct x as [t|]; [|contradiction]. destruct (HI t true Hx Hw) as (M & B & _ & HB & _).
      unfold A. cbn in HB |- *. now rewrite HB.
    + intros x Hx Hw. destruct x as [t|]; [|contradiction]. destruct (HI t false Hx Hw) as (M & B & _ & HB & _).
      unfold A. cbn in HB |- *. now rewrite HB.
  - intros t rev Ht Hw. destruct (HI t rev Ht Hw) as (M & B & HP & HB & HA). exists M. split; [exact HP|].
    unfold A. now rewrite HB.
Qed.
End Whole.
