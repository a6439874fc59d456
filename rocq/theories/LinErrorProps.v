(** The linear approximation and the stability of clusterings: C205. *)
From Coq Require Import Reals Qreals Lra Lia.
From Coquelicot Require Rcomplements.
From Verif Require Import Base GapModel GapProofs PartitionModel PartitionSpec PartitionProofs LouvainModel SparseModel SparseSpec EventsModel EventsSpec EventsProps
  TransModel TransSpec MatProofs TransProofs TransProps ExpModel ExpSpec ExpProps FlowModel FlowSpec FlowProps ErrorProps.
Local Open Scope R_scope.

(** ** Distances *)
Lemma rsum_const_0 n : rsum n (fun _ => 0) = 0.
Proof. rewrite rsum_const. ring. Qed.
Lemma q2r_qabs x : q2r (qabs x) = Rabs (q2r x).
Proof.
  unfold qabs. destruct (qltb_spec x 0%num) as [H|H].
  - apply q2r_lt in H. rewrite q2r_0 in H. now rewrite q2r_opp, Rabs_left.
  - apply Qcnot_lt_le, q2r_le in H. rewrite q2r_0 in H. rewrite Rabs_right; [reflexivity|]. now apply Rle_ge.
Qed.
Lemma distance_real n A B i : q2r (row_distance n A B i) = difference n (toR A) (toR B) i.
Proof. unfold row_distance, difference. rewrite q2r_sumN. apply rsum_ext. intros j _. unfold toR. now rewrite q2r_qabs, q2r_sub. Qed.
Lemma difference_triangle n F G H i : difference n F H i <= difference n F G i + difference n G H i.
Proof. unfold difference. rewrite <- rsum_add. apply rsum_le. intros j _. replace (F i j - H i j) with ((F i j - G i j) + (G i j - H i j)) by ring. apply Rabs_triang. Qed.
Lemma difference_sym n F G i : difference n F G i = difference n G F i.
Proof. unfold difference. apply rsum_ext. intros j _. apply Rabs_minus_sym. Qed.
(** largest distance of two rows *)
Definition largest (n : nat) (A B : mat) : num := fold_right (fun i m => if qleb m (row_distance n A B i) then row_distance n A B i else m) 0%num (seq 0 n).
Lemma largest_gen n A B l :
  let m := fold_right (fun i m => if qleb m (row_distance n A B i) then row_distance n A B i else m) 0%num l in
  (forall i, In i l -> (row_distance n A B i <= m)%num) /\ (m = 0%num \/ exists i, In i l /\ m = row_distance n A B i).
Proof.
  induction l as [|a l [IH1 IH2]]; cbn [fold_right]; [split; [intros i []|now left]|]. cbn zeta in *. set (m := fold_right _ 0%num l) in *.
  destruct (qleb_spec m (row_distance n A B a)) as [H|H].
  - split; [|right; exists a; split; [now left|reflexivity]]. intros i [<-|Hi]; [apply Qcle_refl|]. exact (Qcle_trans _ _ _ (IH1 i Hi) H).
  - split; [|destruct IH2 as [E|(i & Hi & E)]; [now left|right; exists i; split; [now right|exact E]]]. intros i [<-|Hi]; [|now apply IH1]. apply Qclt_le_weak. now apply Qcnot_le_lt.
Qed.
Lemma largest_within n A B : within_error n (largest n A B) A B.
Proof. intros i Hi. apply (proj1 (largest_gen n A B (seq 0 n))). apply in_seq. lia. Qed.
Lemma largest_bound n A B x : 0 <= x -> (forall i, (i < n)%nat -> difference n (toR A) (toR B) i <= x) -> q2r (largest n A B) <= x.
Proof.
  intros Hx H. destruct (proj2 (largest_gen n A B (seq 0 n))) as [E|(i & Hi & E)]; unfold largest; rewrite E; [now rewrite q2r_0|]. rewrite distance_real. apply H. apply in_seq in Hi. lia.
Qed.
Lemma all_within_nth n l l' : length l = length l' -> all_within n (map (fun k => largest n (nth k l ident) (nth k l' ident)) (seq 0 (length l))) l l'.
Proof.
  revert l'. induction l as [|A l IH]; intros [|B l'] HL; try discriminate HL; [constructor|]. cbn [length seq map nth]. constructor; [apply largest_within|].
  rewrite <- seq_shift, map_map. apply IH. cbn in HL. lia.
Qed.
Lemma difference_ext n A A' B B' i : (i < n)%nat -> eqm n A A' -> eqm n B B' -> difference n (toR A) (toR B) i = difference n (toR A') (toR B') i.
Proof. intros Hi HA HB. unfold difference. apply rsum_ext. intros j Hj. unfold toR. now rewrite HA, HB. Qed.

(** ** Matrices of the steps *)
Lemma both_steps n ts lapf E Z P lamda a b a1 b1 a2 b2 t_s fixt sparse sparse' st st' s l l' ka kb Ls :
  laplacians_ok n ts lapf -> StronglySorted Qclt ts -> expm_ok n E -> (forall A, stochastic n A -> stochastic n (P A)) -> (0 <= lamda)%num -> lapf a b = Some (ka, kb, Ls) ->
  run n ts lapf E Z P [CLap a b; CInter (Some lamda) a1 b1 fixt sparse] tn0 = Some st -> aget qeqb (t_inter st) lamda = Some (s, l) ->
  run n ts lapf E Z P [CLap a b; CLinInter (Some lamda) a2 b2 t_s fixt sparse'] tn0 = Some st' -> aget pair_eqb (t_inter_lin st') (lamda, t_s) = Some l' ->
  one_per_step n ka kb (fun k => E (step_length ts fixt ka k * lamda)%num (nth k Ls ident)) l /\ one_per_step n ka kb (lin_step ts P fixt lamda t_s ka Ls) l' /\
  (forall A, In A l -> stochastic n A) /\ (forall A, In A l' -> stochastic n A) /\ (forall k, (k < kb - ka)%nat -> walk_like n (nth k Ls ident) /\ (0 <= step_length ts fixt ka k * lamda)%num).
Proof.
  intros HL HS HE HP Hx EL HR HG HR' HG'. destruct (HL a b) as (ka' & kb' & Ls' & EL' & Hkb & HLs & HW). rewrite EL in EL'. injection EL' as <- <- <-.
  assert (HX : forall k, (k < kb - ka)%nat -> (0 <= step_length ts fixt ka k * lamda)%num) by (intros k Hk; apply qmult_nonneg; [apply sorted_step; [exact HS|lia]|exact Hx]).
  assert (H1 : one_per_step n ka kb (fun k => E (step_length ts fixt ka k * lamda)%num (nth k Ls ident)) l).
  { destruct (inter_matrices_spec n E ts fixt lamda ka kb Ls Hkb HLs) as (l0 & EI & _). pose proof (inter_per_step n E ts fixt lamda ka kb Ls l0 HE Hkb HLs EI) as HO.
    cbn [run do_call] in HR. unfold compute_lap in HR. rewrite EL in HR. unfold compute_inter, ensure_lap in HR. cbn [t_lap set_lap the_lamda t_inter tn0 aget] in HR. rewrite EI in HR.
    injection HR as <-. cbn [t_inter set_inter aset aget] in HG. destruct (qeqb_spec lamda lamda) as [_|H]; [|contradiction]. injection HG as _ <-. exact HO. }
  assert (H2 : one_per_step n ka kb (lin_step ts P fixt lamda t_s ka Ls) l').
  { set (f := fun tk L k => match nth_error (map (fun L => P (mminus ident L)) Ls) k with Some Pi => lin_approx (mminus ident L) (tk * lamda)%num Pi t_s | None => None end).
    assert (HD : exists l, per_step ts fixt (ka, kb, Ls) f = Some l).
    { destruct (per_step_spec ts fixt ka kb Ls f Hkb HLs) as (l0 & E0 & _); [|eauto]. intros k Hk. unfold f. rewrite nth_error_map. rewrite (nth_error_nth' Ls ident) by lia. cbn [option_map].
      change (tau fixt (nth (ka + k) ts 0%num) (nth (S (ka + k)) ts 0%num)) with (step_length ts fixt ka k).
      destruct (lin_approx_defined (mminus ident (nth k Ls ident)) (step_length ts fixt ka k * lamda)%num (P (mminus ident (nth k Ls ident))) t_s) as [A ->]; [now apply HX|discriminate]. }
    destruct HD as [l0 E0]. destruct (lin_steps n ts P fixt lamda t_s ka kb Ls l0 Hkb HLs HS Hx E0) as [HL0 HO].
    cbn [run do_call] in HR'. unfold compute_lap in HR'. rewrite EL in HR'. unfold compute_lin_inter, compute_stat, ensure_lap in HR'. cbn [t_stat t_lap set_lap set_stat tn0 the_lamda t_inter_lin aget] in HR'. fold f in HR'. rewrite E0 in HR'.
    assert (EP : pair_eqb (lamda, t_s) (lamda, t_s) = true) by (now destruct (pair_eqb_spec (lamda, t_s) (lamda, t_s))).
    destruct l0 as [|A l0]; [destruct sparse'; [discriminate|]|]; injection HR' as <-; cbn [t_inter_lin set_inter_lin aset aget] in HG'; rewrite EP in HG'; injection HG' as <-; exact HO. }
  split; [exact H1|]. split; [exact H2|]. split; [|split].
  - apply (per_step_stochastic n ka kb _ l H1). intros k Hk. apply (proj1 HE); [now apply HX|now apply HW].
  - apply (per_step_stochastic n ka kb _ l' H2). intros k Hk. apply lin_step_stochastic; auto.
  - intros k Hk. split; [now apply HW|now apply HX].
Qed.

(** * C205 *)
(** The matrices of [expm], stochastic, are off by [d k] in step [k]; no step is longer than one
    average waiting time. *)
Theorem C205_stability : forall n ts lapf E Z P lamda a b a1 b1 a2 b2 t_s fixt sparse sparse' st st' s l l' ka kb Ls d kd kd' p1 tl g r rtol rtol' F F' q c,
  laplacians_ok n ts lapf -> StronglySorted Qclt ts -> expm_ok n E -> (forall A, stochastic n A -> stochastic n (P A)) -> (0 <= lamda)%num -> lapf a b = Some (ka, kb, Ls) ->
  (forall k, (k < kb - ka)%nat -> (step_length ts fixt ka k * lamda <= 1)%num) ->
  (forall k G i, (k < kb - ka)%nat -> (i < n)%nat -> inter_matrix n (q2r (step_length ts fixt ka k * lamda)) (nth k Ls ident) G ->
     difference n (toR (E (step_length ts fixt ka k * lamda)%num (nth k Ls ident))) G i <= d k) ->
  run n ts lapf E Z P [CLap a b; CInter (Some lamda) a1 b1 fixt sparse] tn0 = Some st -> aget qeqb (t_inter st) lamda = Some (s, l) ->
  run n ts lapf E Z P [CLap a b; CLinInter (Some lamda) a2 b2 t_s fixt sparse'] tn0 = Some st' -> aget pair_eqb (t_inter_lin st') (lamda, t_s) = Some l' ->
  exact kd rtol -> exact kd' rtol' -> distribution_ok n p1 -> times_ok tl ->
  flow_integral n kd None (Some l) p1 tl g r rtol = Some F -> flow_integral n kd' None (Some l') p1 tl g r rtol' = Some F' ->
  valid q -> num_nodes q = n ->
  length (f_I F) = length (f_I F') /\
  ((c < length (f_I F))%nat -> Rabs (q2r (compute_stability (nth c (f_I F) ident) q) - q2r (compute_stability (nth c (f_I F') ident) q)) <=
     rsum (kb - ka) (fun k => d k + 2 * q2r (step_length ts fixt ka k * lamda) * q2r (step_length ts fixt ka k * lamda))).
Proof.
  intros n ts lapf E Z P lamda a b a1 b1 a2 b2 t_s fixt sparse sparse' st st' s l l' ka kb Ls d kd kd' p1 tl g r rtol rtol' F F' q c HL HS HE HP Hx EL Hle Hd HR HG HR' HG' Hex Hex' Hp Ht HF HF' Hq Hn.
  destruct (both_steps n ts lapf E Z P lamda a b a1 b1 a2 b2 t_s fixt sparse sparse' st st' s l l' ka kb Ls HL HS HE HP Hx EL HR HG HR' HG') as ([O1 O2] & [Q1 Q2] & S1 & S2 & HW).
  assert (Hn0 : (0 < n)%nat). { destruct n; [|lia]. exfalso. destruct p1 as [p'|]; cbn in Hp; [|lia]. destruct Hp as [_ Hp]. discriminate Hp. }
  assert (HB : exists es, all_within n es l l' /\ q2r (sumL (fun e => e) es) <= rsum (kb - ka) (fun k => d k + 2 * q2r (step_length ts fixt ka k * lamda) * q2r (step_length ts fixt ka k * lamda))).
  { clear Hn. destruct (Nat.le_gt_cases kb ka) as [Hk|Hk].
    - specialize (O1 Hk). specialize (Q1 Hk). inversion O1 as [|A A' m m' HA HN]; subst. inversion HN; subst. inversion Q1 as [|B B' m m' HB HN']; subst. inversion HN'; subst.
      exists [0%num]. split.
      + constructor; [|constructor]. intros i Hi. replace (row_distance n A B i) with 0%num; [apply Qcle_refl|]. symmetry. unfold row_distance. apply sumN_zero. intros j Hj. rewrite HA, HB by assumption.
        replace (ident i j - ident i j)%num with 0%num by ring. reflexivity.
      + rewrite sumL_cons, sumL_nil. replace (kb - ka)%nat with 0%nat by lia. rewrite rsum_0, q2r_add, !q2r_0. lra.
    - destruct (O2 Hk) as [L1 N1]. destruct (Q2 Hk) as [L2 N2]. exists (map (fun k => largest n (nth k l ident) (nth k l' ident)) (seq 0 (length l))). split; [apply all_within_nth; congruence|].
      rewrite sumL_map, L1. fold (sumN (kb - ka) (fun k => largest n (nth k l ident) (nth k l' ident))). rewrite q2r_sumN. apply rsum_le. intros k Hkk. set (x := (step_length ts fixt ka k * lamda)%num).
      destruct (HW k Hkk) as [W X0]. fold x in X0. specialize (Hle k Hkk). fold x in Hle.
      destruct (proj1 (C156_walk n (nth k Ls ident) (q2r x) W ltac:(apply q2r_le in X0; rewrite q2r_0 in X0; exact X0))) as [G HGx].
      destruct (C158_linear_error n (nth k Ls ident) (P (mminus ident (nth k Ls ident))) x t_s G W X0 Hle HGx) as (A & EA & HA).
      assert (HD : forall i, (i < n)%nat -> difference n (toR (nth k l ident)) (toR (nth k l' ident)) i <= d k + 2 * q2r x * q2r x).
      { intros i Hi. rewrite (difference_ext n _ _ _ _ i Hi (N1 k Hkk) (N2 k Hkk)). cbv beta. unfold lin_step. cbv zeta. fold x. rewrite EA.
        eapply Rle_trans; [apply (difference_triangle n _ G)|]. apply Rplus_le_compat; [apply Hd; assumption|now apply HA]. }
      apply largest_bound; [|exact HD]. eapply Rle_trans; [|exact (HD 0%nat Hn0)]. unfold difference. rewrite <- (rsum_const_0 n). apply rsum_le. intros j _. apply Rabs_pos. }
  destruct HB as (es & HWi & HE2). destruct (C203_errors_add_up n kd kd' l l' es p1 tl g r rtol rtol' F F' q c Hex Hex' Hp Ht S1 S2 HWi HF HF' Hq Hn) as [HLen HC]. split; [exact HLen|].
  intros Hc. specialize (HC Hc). apply q2r_le in HC. rewrite q2r_qabs, q2r_sub in HC. eapply Rle_trans; [exact HC|exact HE2].
Qed.
(** A clustering that is best with the linear approximation. *)
Theorem C205_nearly_best : forall n ts lapf E Z P lamda a b a1 b1 a2 b2 t_s fixt sparse sparse' st st' s l l' ka kb Ls d kd kd' p1 tl g r rtol rtol' F F' q c,
  laplacians_ok n ts lapf -> StronglySorted Qclt ts -> expm_ok n E -> (forall A, stochastic n A -> stochastic n (P A)) -> (0 <= lamda)%num -> lapf a b = Some (ka, kb, Ls) ->
  (forall k, (k < kb - ka)%nat -> (step_length ts fixt ka k * lamda <= 1)%num) ->
  (forall k G i, (k < kb - ka)%nat -> (i < n)%nat -> inter_matrix n (q2r (step_length ts fixt ka k * lamda)) (nth k Ls ident) G ->
     difference n (toR (E (step_length ts fixt ka k * lamda)%num (nth k Ls ident))) G i <= d k) ->
  run n ts lapf E Z P [CLap a b; CInter (Some lamda) a1 b1 fixt sparse] tn0 = Some st -> aget qeqb (t_inter st) lamda = Some (s, l) ->
  run n ts lapf E Z P [CLap a b; CLinInter (Some lamda) a2 b2 t_s fixt sparse'] tn0 = Some st' -> aget pair_eqb (t_inter_lin st') (lamda, t_s) = Some l' ->
  exact kd rtol -> exact kd' rtol' -> distribution_ok n p1 -> times_ok tl ->
  flow_integral n kd None (Some l) p1 tl g r rtol = Some F -> flow_integral n kd' None (Some l') p1 tl g r rtol' = Some F' ->
  valid q -> num_nodes q = n -> (c < length (f_I F))%nat -> best n (nth c (f_I F') ident) q ->
  forall q', valid q' -> num_nodes q' = n ->
  q2r (compute_stability (nth c (f_I F) ident) q') <= q2r (compute_stability (nth c (f_I F) ident) q) +
     2 * rsum (kb - ka) (fun k => d k + 2 * q2r (step_length ts fixt ka k * lamda) * q2r (step_length ts fixt ka k * lamda)).
Proof.
  intros n ts lapf E Z P lamda a b a1 b1 a2 b2 t_s fixt sparse sparse' st st' s l l' ka kb Ls d kd kd' p1 tl g r rtol rtol' F F' q c HL HS HE HP Hx EL Hle Hd HR HG HR' HG' Hex Hex' Hp Ht HF HF' Hq Hn Hc HB q' Hq' Hn'.
  destruct (C205_stability n ts lapf E Z P lamda a b a1 b1 a2 b2 t_s fixt sparse sparse' st st' s l l' ka kb Ls d kd kd' p1 tl g r rtol rtol' F F' q c HL HS HE HP Hx EL Hle Hd HR HG HR' HG' Hex Hex' Hp Ht HF HF' Hq Hn) as [_ H1]. specialize (H1 Hc).
  destruct (C205_stability n ts lapf E Z P lamda a b a1 b1 a2 b2 t_s fixt sparse sparse' st st' s l l' ka kb Ls d kd kd' p1 tl g r rtol rtol' F F' q' c HL HS HE HP Hx EL Hle Hd HR HG HR' HG' Hex Hex' Hp Ht HF HF' Hq' Hn') as [_ H2]. specialize (H2 Hc).
  specialize (HB q' Hq' Hn'). apply q2r_le in HB. apply Rcomplements.Rabs_le_between in H1. apply Rcomplements.Rabs_le_between in H2. lra.
Qed.

(** The network of two events of C39 with rate 1/10, and the matrices of an implicit step in place
    of the exponential: off by at most twice the error of the linear approximation. *)
Definition bound205 (k : nat) : num := match k with O => qf 1 25 | _ => qf 4 25 end.
Definition laps205 : list mat := match lap39 None None with Some (_, _, Ls) => Ls | None => [] end.
Lemma times39 : times (rows net39) = [qn 0; qn 1; qn 3].
Proof. vm_compute. reflexivity. Qed.
Lemma window39 : lap39 None None = Some (0%nat, 2%nat, laps205).
Proof. unfold laps205. assert (H : match lap39 None None with Some (x, y, _) => x = 0%nat /\ y = 2%nat | None => False end) by (vm_compute; auto). destruct (lap39 None None) as [[[x y] Ls]|]; [|destruct H]. destruct H as [-> ->]. reflexivity. Qed.
Lemma implicit_near k i : (k < 2)%nat -> (i < 3)%nat ->
  (row_distance 3 (Estep (step_length (times (rows net39)) false 0 k * qf 1 10) (nth k laps205 ident)) (lin_step (times (rows net39)) P80 false (qf 1 10) (qn 10) 0 laps205 k) i <= bound205 k / (1 + 1))%num.
Proof. intros Hk Hi. do 2 (destruct k as [|k]; [do 3 (destruct i as [|i]; [vm_compute; discriminate|]); lia|]). lia. Qed.
Example C205_applies : laplacians_ok 3 (times (rows net39)) lap39 /\ StronglySorted Qclt (times (rows net39)) /\ expm_ok 3 Estep /\ (forall A, stochastic 3 A -> stochastic 3 (P80 A)) /\
  lap39 None None = Some (0%nat, 2%nat, laps205) /\
  (forall k, (k < 2)%nat -> (step_length (times (rows net39)) false 0 k * qf 1 10 <= 1)%num) /\
  (forall k G i, (k < 2)%nat -> (i < 3)%nat -> inter_matrix 3 (q2r (step_length (times (rows net39)) false 0 k * qf 1 10)) (nth k laps205 ident) G ->
     difference 3 (toR (Estep (step_length (times (rows net39)) false 0 k * qf 1 10)%num (nth k laps205 ident))) G i <= q2r (bound205 k)) /\
  match run 3 (times (rows net39)) lap39 Estep (zeroed 3) P80 [CLap None None; CInter (Some (qf 1 10)) None None false false] tn0,
        run 3 (times (rows net39)) lap39 Estep (zeroed 3) P80 [CLap None None; CLinInter (Some (qf 1 10)) None None (qn 10) false false] tn0 with
  | Some st, Some st' => match aget qeqb (t_inter st) (qf 1 10), aget pair_eqb (t_inter_lin st') (qf 1 10, qn 10) with
      | Some (_, l), Some l' => match flow_integral 3 Dense None (Some l) None (Some [qn 0; qn 1; qn 3]) None false None, flow_integral 3 Dense None (Some l') None (Some [qn 0; qn 1; qn 3]) None false None with
          | Some F, Some F' => compute_stability (nth 0 (f_I F) ident) (part_default 3) <> compute_stability (nth 0 (f_I F') ident) (part_default 3) /\ length (f_I F) = 1%nat
          | _, _ => False end
      | _, _ => False end
  | _, _ => False end.
Proof.
  assert (HX : forall k, (k < 2)%nat -> (0 <= step_length (times (rows net39)) false 0 k * qf 1 10)%num /\ (step_length (times (rows net39)) false 0 k * qf 1 10 <= 1)%num) by (intros k Hk; do 2 (destruct k as [|k]; [split; vm_compute; discriminate|]); lia).
  split; [apply lap39_ok|]. split; [apply lap39_ok|]. split; [apply Estep_ok|]. split; [apply P80_stochastic|]. split; [apply window39|]. split; [intros k Hk; now apply HX|]. split.
  - intros k G i Hk Hi HG. destruct (HX k Hk) as [X0 X1].
    assert (HW : walk_like 3 (nth k laps205 ident)). { destruct (proj1 lap39_ok None None) as (ka & kb & Ls & EL & _ & _ & W). rewrite window39 in EL. assert (E1 : ka = 0%nat) by congruence. assert (E2 : kb = 2%nat) by congruence. assert (E3 : Ls = laps205) by congruence. subst ka kb Ls. apply W. lia. }
    destruct (C158_linear_error 3 (nth k laps205 ident) (P80 (mminus ident (nth k laps205 ident))) _ (qn 10) G HW X0 X1 HG) as (A & EA & HA).
    pose proof (implicit_near k i Hk Hi) as HI. unfold lin_step in HI. cbv zeta in HI. rewrite EA in HI. apply q2r_le in HI. rewrite distance_real in HI.
    eapply Rle_trans; [apply (difference_triangle 3 _ (toR A))|]. specialize (HA i Hi). rewrite difference_sym in HA. eapply Rle_trans; [apply Rplus_le_compat; [exact HI|exact HA]|].
    assert (E2 : (bound205 k = bound205 k / (1 + 1) + (1 + 1) * (step_length (times (rows net39)) false 0 k * qf 1 10) * (step_length (times (rows net39)) false 0 k * qf 1 10))%num) by (do 2 (destruct k as [|k]; [now apply Qc_is_canon|]); lia).
    rewrite E2 at 2. right. rewrite q2r_add, !q2r_mul, q2r_add, !q2r_1. ring.
  - vm_compute. split; [|reflexivity]. intros H. discriminate H.
Qed.

Print Assumptions C205_stability.
Print Assumptions C205_nearly_best.
