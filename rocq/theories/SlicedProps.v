(** The slices of time and the integrals: C202. *)
From Verif Require Import Base LouvainModel SparseModel EventsModel EventsSpec EventsProofs LaplacianProofs EventsProps TransModel TransSpec MatProofs TransProofs TransProps
  FlowModel FlowSpec FlowProofs FlowProps CovModel CovSpec CovProofs CovTaskProofs CovProps SliceModel SliceSpec SliceProofs SliceProps SlicedModel.
From Verif Require AutocovModel ClustModel ClustProps.
Local Open Scope bool_scope.

(** ** Two walks with the same steps *)
Definition same_steps (n : nat) (w w' : list (mat * num)) : Prop :=
  Forall2 (fun x y => eqm n (fst x) (fst y) /\ snd x = snd y) w w'.
Lemma same_duration n w w' : same_steps n w w' -> duration w = duration w'.
Proof. intros H. unfold duration. induction H as [|x y w w' [_ Hd] H IH]; [reflexivity|]. rewrite !sumL_cons. now rewrite Hd, IH. Qed.
Lemma same_firsts n w w' k : same_steps n w w' -> eqm n (chain n (map fst (firstn k w))) (chain n (map fst (firstn k w'))).
Proof.
  intros H. revert k. induction H as [|x y w w' [He _] H IH]; intros k; [apply eqm_refl|]. destruct k as [|k]; [apply eqm_refl|]. cbn [firstn map chain fold_right]. apply mmul_ext; [exact He|apply IH].
Qed.
Lemma same_steps_average n w w' : same_steps n w w' -> eqm n (average n (transitions n w) w) (average n (transitions n w') w').
Proof.
  intros H i j Hi Hj. assert (HL : length w = length w') by (clear -H; induction H; cbn; congruence). unfold average. rewrite (same_duration n w w' H), <- HL. f_equal. apply sumN_ext. intros k Hk. f_equal.
  - clear Hi Hj HL. revert k Hk. induction H as [|x y w w' [_ Hd] H IH]; intros k Hk; [cbn in Hk; lia|]. destruct k as [|k]; [exact Hd|]. cbn [nth]. apply IH. cbn in Hk. lia.
  - unfold transitions. rewrite <- HL, !nth_map_seq by exact Hk. apply flow_cov_ext; [now apply same_firsts|exact Hi|exact Hj].
Qed.
Lemma same_rev n w w' : same_steps n w w' -> same_steps n (rev w) (rev w').
Proof. intros H. induction H as [|x y w w' Hx H IH]; [constructor|]. cbn [rev]. apply Forall2_app; [exact IH|]. now constructor. Qed.

(** ** The steps of the slices *)
Section Steps.
Context (N : net) (g : list grid_row) (E Z : num -> mat -> mat) (P : mat -> mat) (lamda t_s : num) (sparse : bool).
Notation n := (num_nodes_of N).
Notation ts := (times (rows N)).
Context (HLap : forall a b, exists ka kb Ls, compute_laplacians N g a b = Some (ka, kb, Ls) /\ start_index ts a ka /\ stop_index ts b kb /\
    length Ls = kb - ka /\ ka < length ts /\ kb < length ts /\ right_from N ka Ls).
Context (HOk : laplacians_ok n ts (compute_laplacians N g)) (HE : expm_ok n E) (HB : by_entries n E)
  (HP : forall A, stochastic n A -> stochastic n (P A)) (HPe : forall A B, eqm n A B -> eqm n (P A) (P B)) (Hx : (0 <= lamda)%num).
(** the matrix of a step of length [x] with Laplacian [L] *)
Definition step_of_laplacian (m : method) (x : num) (L : mat) : mat :=
  match m with
  | Expm => E (x * lamda)%num L
  | Lin => match lin_approx (mminus ident L) (x * lamda)%num (P (mminus ident L)) t_s with Some A => A | None => ident end
  end.
Lemma step_ext m x L L' : eqm n L L' -> eqm n (step_of_laplacian m x L) (step_of_laplacian m x L').
Proof using HB HPe.
  intros H. destruct m; [now apply HB|]. cbn [step_of_laplacian]. assert (H1 : eqm n (mminus ident L) (mminus ident L')) by (intros i j Hi Hj; unfold mminus; now rewrite H).
  pose proof (HPe _ _ H1) as H2. unfold lin_approx. destruct (qltb _ 0%num); [apply eqm_refl|]. destruct (qleb _ 1%num); [|destruct (qltb _ t_s); [|exact H2]]; intros i j Hi Hj; unfold mscal, mplus; rewrite ?(H1 i j Hi Hj), ?(H2 i j Hi Hj); reflexivity.
Qed.
(** [x] is the step between the j-th and the next time *)
Definition right_step (m : method) (j : nat) (x : mat * num) : Prop :=
  snd x = (nth (S j) ts 0 - nth j ts 0)%num /\
  exists L, walk_laplacian n (fun a b => contact (rows N) a b (nth j ts 0%num)) L /\ eqm n (fst x) (step_of_laplacian m (snd x) L).
Definition right_steps (m : method) (j : nat) (w : list (mat * num)) : Prop := forall k, k < length w -> right_step m (j + k) (nth k w (ident, 0%num)).
Lemma right_steps_unique m j w w' : right_steps m j w -> right_steps m j w' -> length w = length w' -> same_steps n w w'.
Proof using HB HPe.
  revert j w'. induction w as [|x w IH]; intros j [|y w'] H H' HL; try discriminate HL; [constructor|]. constructor.
  - destruct (H 0 ltac:(cbn; lia)) as (E1 & L & HL1 & H1). destruct (H' 0 ltac:(cbn; lia)) as (E2 & L' & HL2 & H2). cbn [nth] in *. rewrite Nat.add_0_r in *. split; [|congruence].
    eapply eqm_trans; [exact H1|]. eapply eqm_trans; [|apply eqm_sym; exact H2]. replace (snd y) with (snd x) by congruence. apply step_ext. exact (SliceProofs.walk_laplacian_unique n _ L L' HL1 HL2).
  - apply (IH (S j)); [| |cbn in HL; lia]; intros k Hk; replace (S j + k) with (j + S k) by lia; [apply (H (S k))|apply (H' (S k))]; cbn; lia.
Qed.
Lemma right_steps_app m j w w' : right_steps m j w -> right_steps m (j + length w) w' -> right_steps m j (w ++ w').
Proof using.
  intros H H' k Hk. rewrite app_length in Hk. destruct (Nat.lt_ge_cases k (length w)) as [Hlt|Hge]; [rewrite app_nth1 by exact Hlt; now apply H|].
  rewrite app_nth2 by exact Hge. replace (j + k) with (j + length w + (k - length w)) by lia. apply H'. lia.
Qed.
Lemma saved_spec m a b : exists ka kb Ls, compute_laplacians N g (Some a) (Some b) = Some (ka, kb, Ls) /\ start_index ts (Some a) ka /\ start_index ts (Some b) kb /\
  length Ls = kb - ka /\ ka < length ts /\ kb < length ts /\ right_from N ka Ls /\
  ((saved N g E Z P lamda t_s sparse m (a, b) = None /\ kb <= ka /\ m = Lin) \/
   exists l, saved N g E Z P lamda t_s sparse m (a, b) = Some (mkSlice l (firstn (kb + 1 - ka) (skipn ka ts)) (nth ka ts 0%num) (nth kb ts 0%num)) /\
     one_per_step n ka kb (fun k => step_of_laplacian m (step_length ts false ka k) (nth k Ls ident)) l /\ (forall A, In A l -> stochastic n A)).
Proof using HLap HOk HE HP Hx.
  destruct (HLap (Some a) (Some b)) as (ka & kb & Ls & EL & Sa & Sb & HLs & Hka & Hkb & HR). exists ka, kb, Ls. do 7 (split; [assumption|]).
  destruct (HOk (Some a) (Some b)) as (ka' & kb' & Ls' & EL' & _ & _ & HW). rewrite EL in EL'. injection EL' as <- <- <-.
  pose proof (times_sorted (rows N)) as HS. destruct m.
  - right. destruct (inter_matrices_spec n E ts false lamda ka kb Ls Hkb HLs) as (l & EI & _). pose proof (inter_per_step n E ts false lamda ka kb Ls l HE Hkb HLs EI) as HO.
    destruct (per_step_stochastic n ka kb _ l HO) as [_ Hst].
    { intros k Hk. apply (proj1 HE); [|now apply HW]. apply qmult_nonneg; [|exact Hx]. apply sorted_step; [exact HS|lia]. }
    exists l. split; [|split; [exact HO|exact Hst]]. unfold saved, slice_calls. cbn [run do_call fst snd]. unfold compute_lap. rewrite EL. unfold compute_inter, ensure_lap. cbn [t_lap set_lap the_lamda t_inter tn0 aget]. rewrite EI.
    cbn [set_inter t_lap slice_matrices t_inter]. change (aset qeqb [] lamda (sparse, l)) with [(lamda, (sparse, l))]. cbn [aget]. now destruct (qeqb_spec lamda lamda).
  - set (f := fun tk L k => match nth_error (map (fun L => P (mminus ident L)) Ls) k with Some Pi => lin_approx (mminus ident L) (tk * lamda)%num Pi t_s | None => None end).
    assert (HD : exists l, per_step ts false (ka, kb, Ls) f = Some l).
    { destruct (per_step_spec ts false ka kb Ls f Hkb HLs) as (l' & E' & _); [|eauto]. intros k Hk. unfold f. rewrite nth_error_map. rewrite (nth_error_nth' Ls ident) by lia. cbn [option_map].
      change (tau false (nth (ka + k) ts 0%num) (nth (S (ka + k)) ts 0%num)) with (step_length ts false ka k).
      destruct (lin_approx_defined (mminus ident (nth k Ls ident)) (step_length ts false ka k * lamda)%num (P (mminus ident (nth k Ls ident))) t_s) as [A ->]; [apply qmult_nonneg; [apply sorted_step; [exact HS|lia]|exact Hx]|discriminate]. }
    destruct HD as [l0 E0]. destruct (lin_steps n ts P false lamda t_s ka kb Ls l0 Hkb HLs HS Hx E0) as [HL0 HO].
    destruct (per_step_stochastic n ka kb _ _ HO) as [_ Hst]; [intros k Hk; apply lin_step_stochastic; auto|].
    assert (ES : saved N g E Z P lamda t_s sparse Lin (a, b) = match l0 with [] => if sparse then None else Some (mkSlice [ident] (firstn (kb + 1 - ka) (skipn ka ts)) (nth ka ts 0%num) (nth kb ts 0%num))
      | _ => Some (mkSlice l0 (firstn (kb + 1 - ka) (skipn ka ts)) (nth ka ts 0%num) (nth kb ts 0%num)) end).
    { unfold saved, slice_calls. cbn [run do_call fst snd]. unfold compute_lap. rewrite EL. unfold compute_lin_inter, compute_stat, ensure_lap. cbn [t_stat t_lap set_lap set_stat tn0 the_lamda t_inter_lin aget]. fold f. rewrite E0.
      assert (ER : qeqb lamda lamda = true) by (now destruct (qeqb_spec lamda lamda)). assert (ET : qeqb t_s t_s = true) by (now destruct (qeqb_spec t_s t_s)). assert (EP : pair_eqb (lamda, t_s) (lamda, t_s) = true) by (unfold pair_eqb; cbn [fst snd]; now rewrite ER, ET).
      destruct l0 as [|A l0]; [destruct sparse; [reflexivity|]|]; cbn [set_inter_lin t_lap set_stat set_lap slice_matrices t_inter_lin aset aget]; now rewrite EP. }
    rewrite ES. destruct l0 as [|A l0].
    + destruct sparse; [left; split; [reflexivity|]; cbn in HL0; split; [lia|reflexivity]|right; exists [ident]; auto].
    + right. exists (A :: l0). auto.
Qed.

Lemma window_nth ka kb k : ka + k <= kb -> kb < length ts -> nth k (firstn (kb + 1 - ka) (skipn ka ts)) 0%num = nth (ka + k) ts 0%num.
Proof using. intros H1 H2. rewrite nth_firstn_lt by lia. apply nth_skipn_add. Qed.
Lemma window_length ka kb : ka <= kb -> kb < length ts -> length (firstn (kb + 1 - ka) (skipn ka ts)) = S (kb - ka).
Proof using. intros H1 H2. rewrite firstn_length, skipn_length. lia. Qed.
Lemma slice_bounds bounds i : SliceSpec.increasing bounds -> S i < length bounds ->
  nth_error (slices_of bounds) i = Some (nth i bounds 0%num, nth (S i) bounds 0%num) /\ (nth i bounds 0 <= nth (S i) bounds 0)%num.
Proof using.
  intros HI Hi. split.
  - rewrite <- (slices_of_nth bounds i 0%num Hi). apply nth_error_nth'. rewrite slices_of_length. lia.
  - revert i Hi. induction HI as [|a l HI IH HF]; intros i Hi; [cbn in Hi; lia|]. destruct i as [|i]; [|apply IH; cbn in Hi; lia]. cbn [nth]. destruct l as [|b l]; [cbn in Hi; lia|]. now inversion HF.
Qed.
Notation data := (saved_slices N g E Z P lamda t_s sparse).
Lemma window_ordered a b ka kb : (a <= b)%num -> start_index ts (Some a) ka -> start_index ts (Some b) kb -> ka < length ts -> kb < length ts -> ka <= kb.
Proof using. intros. apply (start_mono ts a b ka kb (times_sorted _)); assumption. Qed.
Lemma slice_right bounds m i : SliceSpec.increasing bounds -> S i < length bounds -> exists ka kb,
  start_index ts (Some (nth i bounds 0%num)) ka /\ start_index ts (Some (nth (S i) bounds 0%num)) kb /\ ka <= kb /\ kb < length ts /\
  length (steps false (data bounds m i)) = kb - ka /\ right_steps m ka (steps false (data bounds m i)).
Proof using HLap HOk HE HP Hx.
  intros HI Hi. destruct (slice_bounds bounds i HI Hi) as [EN Hle]. unfold saved_slices. rewrite EN.
  destruct (saved_spec m (nth i bounds 0%num) (nth (S i) bounds 0%num)) as (ka & kb & Ls & EL & Sa & Sb & HLs & Hka & Hkb & HR & HC).
  assert (Hab := window_ordered _ _ ka kb Hle Sa Sb Hka Hkb). exists ka, kb. do 4 (split; [assumption|]).
  destruct HC as [(-> & Hk & _)|(l & -> & [H1 H2] & _)].
  { split; [cbn; lia|]. intros k Hk'. cbn in Hk'. lia. }
  cbn [steps s_inter s_times]. set (w := firstn (kb + 1 - ka) (skipn ka ts)).
  assert (HW : length (diffs w) = kb - ka) by (rewrite FlowProofs.diffs_length; unfold w; rewrite window_length by lia; lia).
  destruct (Nat.eq_dec ka kb) as [->|Hne].
  { rewrite combine_length, HW. replace (Nat.min (length l) (kb - kb)) with (kb - kb) by lia. split; [reflexivity|]. intros k Hk. rewrite combine_length, HW in Hk. lia. }
  destruct (H2 ltac:(lia)) as [HL HK]. assert (HC : length (combine l (diffs w)) = kb - ka) by (rewrite combine_length; lia). split; [exact HC|]. intros k Hk. rewrite HC in Hk.
  rewrite combine_nth by lia. assert (ED : nth k (diffs w) 0%num = (nth (S (ka + k)) ts 0 - nth (ka + k) ts 0)%num).
  { rewrite FlowProofs.diffs_nth by (unfold w; rewrite window_length; lia). unfold w. rewrite !window_nth by lia. now replace (ka + S k) with (S (ka + k)) by lia. }
  split; cbn [fst snd]; [exact ED|]. exists (nth k Ls (fun _ _ => 0%num)). split.
  - pose proof (times_sorted (rows N)) as HS. destruct (next_time_nth ts (ka + k) HS ltac:(lia)) as [HN _]. apply HR; [lia|apply Qcle_refl|exact HN].
  - rewrite ED. rewrite (nth_indep Ls (fun _ _ => 0%num) ident) by lia. exact (HK k Hk).
Qed.
Lemma slices_good bounds : SliceSpec.increasing bounds -> all_slices_ok n (data bounds).
Proof using HLap HOk HE HP Hx.
  intros HI m i s ES. unfold saved_slices in ES. destruct (nth_error (slices_of bounds) i) as [[u v]|] eqn:EN; [|discriminate].
  assert (Hi : S i < length bounds). { assert (HN : i < length (slices_of bounds)) by (apply nth_error_Some; congruence). rewrite slices_of_length in HN. lia. }
  destruct (slice_bounds bounds i HI Hi) as [EN' Hle]. rewrite EN in EN'. injection EN' as -> ->.
  destruct (saved_spec m (nth i bounds 0%num) (nth (S i) bounds 0%num)) as (ka & kb & Ls & EL & Sa & Sb & HLs & Hka & Hkb & HR & HC).
  assert (Hab := window_ordered _ _ ka kb Hle Sa Sb Hka Hkb).
  destruct HC as [(EC & _)|(l & EC & [H1 H2] & Hst)]; rewrite EC in ES; [discriminate|]. injection ES as <-.
  unfold slice_ok. cbn [s_times s_inter s_start s_stop]. rewrite window_length by lia. split; [|split; [|split; [|split; [|exact Hst]]]].
  - destruct (Nat.eq_dec ka kb) as [->|Hne]; [right; lia|left]. destruct (H2 ltac:(lia)) as [-> _]. reflexivity.
  - intros p q Hpq Hq. rewrite window_length in Hq by lia. rewrite !window_nth by lia. apply qsorted_nth; [apply times_sorted|lia|lia].
  - rewrite window_nth by lia. now rewrite Nat.add_0_r.
  - rewrite window_nth by lia. f_equal. lia.
Qed.
(** ** The walk between two bounds *)
Lemma walk_forward bounds m a b : SliceSpec.increasing bounds -> a <= b -> b < length bounds -> exists ka kb,
  start_index ts (Some (nth a bounds 0%num)) ka /\ start_index ts (Some (nth b bounds 0%num)) kb /\ ka <= kb /\ kb < length ts /\
  length (walk (data bounds m) a b) = kb - ka /\ right_steps m ka (walk (data bounds m) a b).
Proof using HLap HOk HE HP Hx.
  intros HI Hab. induction Hab as [|b Hab IH]; intros Hb.
  - rewrite walk_same. destruct (HLap (Some (nth a bounds 0%num)) None) as (ka & _ & _ & _ & Sa & _ & _ & Hka & _). exists ka, ka. do 4 (split; [assumption || lia|]). split; [cbn; lia|]. intros k Hk. cbn in Hk. lia.
  - destruct (IH ltac:(lia)) as (ka & kb & Sa & Sb & Hle & Hkb & HL & HR). destruct (slice_right bounds m b HI Hb) as (kb' & kc & Sb' & Sc & Hle' & Hkc & HL' & HR').
    assert (kb' = kb) by (apply (start_unique ts (nth b bounds 0%num) kb' kb (times_sorted _)); try assumption; lia). subst kb'. exists ka, kc. do 2 (split; [assumption|]). do 2 (split; [lia|]).
    replace (S b) with (pos_after false b) by (cbn; lia). rewrite (walk_step (data bounds m) false a b) by exact Hab. cbn [pos_before]. split; [rewrite app_length; lia|]. apply right_steps_app; [exact HR|]. replace (ka + length (walk (data bounds m) a b)) with kb by lia. exact HR'.
Qed.
Lemma walk_backward bounds m a b : b < a -> walk (data bounds m) a b = rev (walk (data bounds m) b a).
Proof using.
  intros Hab. unfold walk, crossed. destruct (Nat.leb_spec a b) as [|_]; [lia|]. destruct (Nat.leb_spec b a) as [_|]; [|lia]. destruct (Nat.ltb_spec b a) as [_|]; [|lia]. destruct (Nat.ltb_spec a b) as [|_]; [lia|].
  generalize (seq b (a - b)). intros l. induction l as [|k l IH]; [reflexivity|]. cbn [rev flat_map]. rewrite flat_map_app, IH, rev_app_distr. cbn [flat_map]. rewrite app_nil_r. f_equal. now destruct (data bounds m k).
Qed.
End Steps.

(** ** The integral of a slice, by the class and from the steps *)
Lemma steps_fst back s : length (s_times s) = S (length (s_inter s)) -> map fst (steps back (Some s)) = TransSpec.in_order back (s_inter s).
Proof.
  intros HL. cbn [steps]. assert (HM : map fst (combine (s_inter s) (diffs (s_times s))) = s_inter s).
  { assert (HD : length (s_inter s) = length (diffs (s_times s))) by (rewrite FlowProofs.diffs_length; lia). revert HD. generalize (s_inter s) (diffs (s_times s)). intros l l'. revert l'. induction l as [|x l IH]; intros [|y l'] HD; try discriminate HD; [reflexivity|]. cbn [combine map fst]. f_equal. apply IH. cbn in HD. lia. }
  destruct back; cbn [TransSpec.in_order]; [now rewrite map_rev, HM|exact HM].
Qed.
Lemma steps_count back s : length (s_times s) = S (length (s_inter s)) -> length (steps back (Some s)) = length (s_inter s).
Proof. intros HL. rewrite <- (map_length fst), (steps_fst back s HL). destruct back; [apply rev_length|reflexivity]. Qed.
Lemma steps_gap back s k : FlowSpec.increasing (s_times s) -> length (s_times s) = S (length (s_inter s)) -> k < length (s_inter s) ->
  snd (nth k (steps back (Some s)) (ident, 0%num)) = gap (flow_times None (Some (s_inter s)) (Some (s_times s)) back) k.
Proof.
  intros HI HL Hk. set (K := length (s_inter s)) in *. assert (HD : length (diffs (s_times s)) = K) by (rewrite FlowProofs.diffs_length; lia).
  assert (HN : forall j, j < K -> snd (nth j (combine (s_inter s) (diffs (s_times s))) (ident, 0%num)) = (nth (S j) (s_times s) 0 - nth j (s_times s) 0)%num /\ (nth j (s_times s) 0 < nth (S j) (s_times s) 0)%num).
  { intros j Hj. rewrite combine_nth by (unfold K in *; lia). cbn [snd]. split; [apply FlowProofs.diffs_nth; lia|apply HI; lia]. }
  unfold flow_times, gap. cbn [the_times]. destruct back; cbn [steps].
  - rewrite rev_nth by (rewrite combine_length; fold K; lia). rewrite combine_length. fold K. rewrite HD, Nat.min_id. destruct (HN (K - S k) ltac:(lia)) as [-> H2].
    rewrite !rev_nth by lia. rewrite HL. replace (S K - S (S k)) with (K - S k) by lia. replace (S K - S k) with (S (K - S k)) by lia. unfold qabs. destruct (qltb_spec (nth (K - S k) (s_times s) 0 - nth (S (K - S k)) (s_times s) 0)%num 0%num) as [_|Hn]; [ring|exfalso; apply Hn; qlra].
  - destruct (HN k Hk) as [-> H2]. unfold qabs. destruct (qltb_spec (nth (S k) (s_times s) 0 - nth k (s_times s) 0)%num 0%num) as [Hn|_]; [exfalso; apply (Qclt_not_le _ _ Hn); qlra|reflexivity].
Qed.
Lemma qabs_swap a b : qabs (a - b)%num = qabs (b - a)%num.
Proof.
  unfold qabs. destruct (qltb_spec (a - b)%num 0%num) as [Ha|Ha], (qltb_spec (b - a)%num 0%num) as [Hb|Hb]; try ring; [qlra|]. apply Qcnot_lt_le in Ha, Hb. apply Qcle_antisym; qlra.
Qed.
Lemma class_average n back s : slice_ok n s -> length (s_times s) = S (length (s_inter s)) ->
  eqm n (flow_average n None (Some (s_inter s)) None (Some (s_times s)) back (length (s_inter s))) (average n (transitions n (steps back (Some s))) (steps back (Some s))).
Proof.
  intros HO HL i j Hi Hj. pose proof HO as (_ & HI & H0 & H1 & _). unfold flow_average, time_average, average. unfold duration. rewrite (steps_duration n back s HO), (steps_count back s HL), H0, H1, HL. cbn [the_distribution]. f_equal.
  - apply sumN_ext. intros k Hk. rewrite (steps_gap back s k HI HL Hk). f_equal. unfold transitions. rewrite (steps_count back s HL), nth_map_seq by exact Hk. rewrite <- firstn_map, (steps_fst back s HL). reflexivity.
  - unfold flow_times. cbn [the_times]. replace (S (length (s_inter s)) - 1) with (length (s_inter s)) by lia.
    destruct back; [|reflexivity]. rewrite !rev_nth by lia. rewrite HL. replace (S (length (s_inter s)) - S (length (s_inter s))) with 0 by lia. replace (S (length (s_inter s)) - 1) with (length (s_inter s)) by lia. apply qabs_swap.
Qed.

(** * C202: cutting a period into slices does not change the integrals *)
Lemma has_nodes N : rows N <> [] -> ids_ok N = true -> 0 < num_nodes_of N.
Proof. intros Hne Hids. unfold ids_ok in Hids. destruct (rows N) as [|r l]; [congruence|]. cbn [forallb] in Hids. apply andb_true_iff in Hids. destruct Hids as [H _]. apply andb_true_iff in H. destruct H as [H _]. apply Nat.ltb_lt in H. lia. Qed.
Section Network.
Context (fuel : nat) (srcs tgts : list nat) (starts ends : list num) (N : net) (g : list grid_row) (E Z : num -> mat -> mat) (P : mat -> mat) (lamda t_s : num).
Context (HN : make_net fuel true false srcs tgts starts ends = Some N) (Hne : rows N <> []) (Hids : ids_ok N = true) (Hself : no_self_contact (rows N)) (HLast : lasting (rows N)) (HNo : no_overlap (rows N)) (HG : is_time_grid (rows N) g).
Context (HE : expm_ok (num_nodes_of N) E) (HB : by_entries (num_nodes_of N) E) (HP : forall A, stochastic (num_nodes_of N) A -> stochastic (num_nodes_of N) (P A))
  (HPe : forall A B, eqm (num_nodes_of N) A B -> eqm (num_nodes_of N) (P A) (P B)) (Hx : (0 <= lamda)%num).
Lemma net_lap : forall a b, exists ka kb Ls, compute_laplacians N g a b = Some (ka, kb, Ls) /\ start_index (times (rows N)) a ka /\ stop_index (times (rows N)) b kb /\
    length Ls = kb - ka /\ ka < length (times (rows N)) /\ kb < length (times (rows N)) /\ right_from N ka Ls.
Proof using HN Hne Hids Hself HLast HNo HG.
  intros a' b'. destruct (C34_laplacians fuel srcs tgts starts ends N g a' b' HN Hne Hids Hself HLast HNo HG) as (ka & kb & Ls & H1 & H2 & H3 & H4 & H5 & H6 & H7). exists ka, kb, Ls. repeat (split; [assumption|]). intros k u Hk. apply H7. lia.
Qed.
Lemma net_ok : laplacians_ok (num_nodes_of N) (times (rows N)) (compute_laplacians N g).
Proof using HN Hne Hids Hself HG. exact (proj1 (C39_network_laplacians fuel true srcs tgts starts ends N g HN Hne Hids Hself HG)). Qed.
Lemma network_slices sparse bounds : SliceSpec.increasing bounds -> all_slices_ok (num_nodes_of N) (saved_slices N g E Z P lamda t_s sparse bounds).
Proof using HN Hne Hids Hself HLast HNo HG HE HP Hx. intros HI. exact (slices_good N g E Z P lamda t_s sparse net_lap net_ok HE HP Hx bounds HI). Qed.
(** a walk that takes time, and another between the same times: the same steps *)
Lemma walks_same sparse sparse' bounds bounds' m a b a' b' : SliceSpec.increasing bounds -> SliceSpec.increasing bounds' ->
  a < length bounds -> b < length bounds -> a' < length bounds' -> b' < length bounds' -> nth a bounds 0%num = nth a' bounds' 0%num -> nth b bounds 0%num = nth b' bounds' 0%num ->
  let w := walk (saved_slices N g E Z P lamda t_s sparse bounds m) a b in let w' := walk (saved_slices N g E Z P lamda t_s sparse' bounds' m) a' b' in
  w <> [] -> same_steps (num_nodes_of N) w w'.
Proof using HN Hne Hids Hself HLast HNo HG HE HB HP HPe Hx.
  intros HI HI' La Lb La' Lb' Ea Eb w w' Hw. pose proof (times_sorted (rows N)) as HS.
  assert (HF : forall sp bd, SliceSpec.increasing bd -> forall x y, x <= y -> y < length bd -> exists ka kb, start_index (times (rows N)) (Some (nth x bd 0%num)) ka /\ start_index (times (rows N)) (Some (nth y bd 0%num)) kb /\ ka <= kb /\ kb < length (times (rows N)) /\
    length (walk (saved_slices N g E Z P lamda t_s sp bd m) x y) = kb - ka /\ right_steps N E P lamda t_s m ka (walk (saved_slices N g E Z P lamda t_s sp bd m) x y)).
  { intros sp bd Hbd x y Hxy Hy. exact (walk_forward N g E Z P lamda t_s sp net_lap net_ok HE HP Hx bd m x y Hbd Hxy Hy). }
  assert (HU : forall u k k', start_index (times (rows N)) (Some u) k -> start_index (times (rows N)) (Some u) k' -> k < length (times (rows N)) -> k' < length (times (rows N)) -> k = k').
  { intros u k k'. intros. now apply (start_unique (times (rows N)) u k k' HS). }
  destruct (Nat.le_gt_cases a b) as [Hab|Hab].
  - destruct (HF sparse bounds HI a b Hab Lb) as (ka & kb & Sa & Sb & Hle & Hkb & HL & HR). destruct (Nat.le_gt_cases a' b') as [Hab'|Hab'].
    + destruct (HF sparse' bounds' HI' a' b' Hab' Lb') as (ka' & kb' & Sa' & Sb' & Hle' & Hkb' & HL' & HR'). rewrite <- Ea in Sa'. rewrite <- Eb in Sb'. pose proof (HU _ _ _ Sa Sa' ltac:(lia) ltac:(lia)) as <-. pose proof (HU _ _ _ Sb Sb' ltac:(lia) ltac:(lia)) as <-.
      apply (right_steps_unique N E P lamda t_s HB HPe m ka); [exact HR|exact HR'|]. fold w in HL. fold w' in HL'. lia.
    + exfalso. destruct (HF sparse' bounds' HI' b' a' ltac:(lia) La') as (kb' & ka' & Sb' & Sa' & Hle' & Hka' & _). rewrite <- Ea in Sa'. rewrite <- Eb in Sb'. pose proof (HU _ _ _ Sa Sa' ltac:(lia) ltac:(lia)) as <-. pose proof (HU _ _ _ Sb Sb' ltac:(lia) ltac:(lia)) as <-.
      apply Hw. apply length_zero_iff_nil. fold w in HL. lia.
  - destruct (HF sparse bounds HI b a ltac:(lia) La) as (kb & ka & Sb & Sa & Hle & Hka & HL & HR). subst w w'. rewrite (walk_backward N g E Z P lamda t_s sparse bounds m a b Hab) in *. destruct (Nat.lt_ge_cases b' a') as [Hab'|Hab'].
    + rewrite (walk_backward N g E Z P lamda t_s sparse' bounds' m a' b' Hab'). destruct (HF sparse' bounds' HI' b' a' ltac:(lia) La') as (kb' & ka' & Sb' & Sa' & Hle' & Hka' & HL' & HR'). rewrite <- Ea in Sa'. rewrite <- Eb in Sb'. pose proof (HU _ _ _ Sa Sa' ltac:(lia) ltac:(lia)) as <-. pose proof (HU _ _ _ Sb Sb' ltac:(lia) ltac:(lia)) as <-.
      apply same_rev. apply (right_steps_unique N E P lamda t_s HB HPe m kb); [exact HR|exact HR'|lia].
    + exfalso. destruct (HF sparse' bounds' HI' a' b' Hab' Lb') as (ka' & kb' & Sa' & Sb' & Hle' & Hkb' & _). rewrite <- Ea in Sa'. rewrite <- Eb in Sb'. pose proof (HU _ _ _ Sa Sa' ltac:(lia) ltac:(lia)) as <-. pose proof (HU _ _ _ Sb Sb' ltac:(lia) ltac:(lia)) as <-.
      apply Hw. apply length_zero_iff_nil. rewrite rev_length. lia.
Qed.
End Network.
(** The integral over a period is the same however the period is cut into slices: if two runs of
    the second step, on different slices of the same network, have written an integral from the
    same time to the same time, in either direction, then the two files stand for the same matrix
    and the same duration. *)
Definition C202_statement : Prop := forall fuel srcs tgts starts ends N g E Z P lamda t_s sparse sparse' bounds bounds' trans trans' inds inds' d d' m a b a' b' A t A' t',
  make_net fuel true false srcs tgts starts ends = Some N -> rows N <> [] -> ids_ok N = true -> no_self_contact (rows N) -> lasting (rows N) -> is_time_grid (rows N) g ->
  expm_ok (num_nodes_of N) E -> by_entries (num_nodes_of N) E -> (forall A, stochastic (num_nodes_of N) A -> stochastic (num_nodes_of N) (P A)) ->
  (forall A B, eqm (num_nodes_of N) A B -> eqm (num_nodes_of N) (P A) (P B)) -> (0 <= lamda)%num ->
  SliceSpec.increasing bounds -> SliceSpec.increasing bounds' ->
  trans_ok (num_nodes_of N) (saved_slices N g E Z P lamda t_s sparse bounds) trans -> trans_ok (num_nodes_of N) (saved_slices N g E Z P lamda t_s sparse' bounds') trans' ->
  increasing_nat inds -> increasing_nat inds' ->
  history (num_nodes_of N) 0 (saved_slices N g E Z P lamda t_s sparse bounds) trans inds d -> history (num_nodes_of N) 0 (saved_slices N g E Z P lamda t_s sparse' bounds') trans' inds' d' ->
  a < length bounds -> b < length bounds -> a' < length bounds' -> b' < length bounds' -> nth a bounds 0%num = nth a' bounds' 0%num -> nth b bounds 0%num = nth b' bounds' 0%num ->
  d_int d m a b = Some (Whole (A, t)) -> d_int d' m a' b' = Some (Whole (A', t')) ->
  t = t' /\ eqm (num_nodes_of N) (integral_of (num_nodes_of N) A t) (integral_of (num_nodes_of N) A' t').
(** true if no two events of a pair overlap *)
Theorem C202_slicings_partial : forall fuel srcs tgts starts ends N g E Z P lamda t_s sparse sparse' bounds bounds' trans trans' inds inds' d d' m a b a' b' A t A' t',
  make_net fuel true false srcs tgts starts ends = Some N -> rows N <> [] -> ids_ok N = true -> no_self_contact (rows N) -> lasting (rows N) -> no_overlap (rows N) -> is_time_grid (rows N) g ->
  expm_ok (num_nodes_of N) E -> by_entries (num_nodes_of N) E -> (forall A, stochastic (num_nodes_of N) A -> stochastic (num_nodes_of N) (P A)) ->
  (forall A B, eqm (num_nodes_of N) A B -> eqm (num_nodes_of N) (P A) (P B)) -> (0 <= lamda)%num ->
  SliceSpec.increasing bounds -> SliceSpec.increasing bounds' ->
  trans_ok (num_nodes_of N) (saved_slices N g E Z P lamda t_s sparse bounds) trans -> trans_ok (num_nodes_of N) (saved_slices N g E Z P lamda t_s sparse' bounds') trans' ->
  increasing_nat inds -> increasing_nat inds' ->
  history (num_nodes_of N) 0 (saved_slices N g E Z P lamda t_s sparse bounds) trans inds d -> history (num_nodes_of N) 0 (saved_slices N g E Z P lamda t_s sparse' bounds') trans' inds' d' ->
  a < length bounds -> b < length bounds -> a' < length bounds' -> b' < length bounds' -> nth a bounds 0%num = nth a' bounds' 0%num -> nth b bounds 0%num = nth b' bounds' 0%num ->
  d_int d m a b = Some (Whole (A, t)) -> d_int d' m a' b' = Some (Whole (A', t')) ->
  t = t' /\ eqm (num_nodes_of N) (integral_of (num_nodes_of N) A t) (integral_of (num_nodes_of N) A' t').
Proof.
  intros fuel srcs tgts starts ends N g E Z P lamda t_s sparse sparse' bounds bounds' trans trans' inds inds' d d' m a b a' b' A t A' t' HN Hne Hids Hself HLast HNo HG HE HB HP HPe Hx HI HI' HT HT' Hin Hin' HH HH' La Lb La' Lb' Ea Eb Ed Ed'.
  assert (Hn := has_nodes N Hne Hids).
  assert (HS := network_slices fuel srcs tgts starts ends N g E Z P lamda t_s HN Hne Hids Hself HLast HNo HG HE HP Hx).
  destruct (C115_files_right _ _ _ _ _ Hn (HS sparse bounds HI) HT Hin HH m a b _ Ed) as (A1 & t1 & E1 & H1 & H2 & _ & H3).
  destruct (C115_files_right _ _ _ _ _ Hn (HS sparse' bounds' HI') HT' Hin' HH' m a' b' _ Ed') as (A2 & t2 & E2 & K1 & K2 & _ & K3).
  assert (A1 = A /\ t1 = t) as [-> ->] by (split; congruence). assert (A2 = A' /\ t2 = t') as [-> ->] by (split; congruence).
  pose proof (walks_same fuel srcs tgts starts ends N g E Z P lamda t_s HN Hne Hids Hself HLast HNo HG HE HB HP HPe Hx sparse sparse' bounds bounds' m a b a' b' HI HI' La Lb La' Lb' Ea Eb) as HW. cbv zeta in HW.
  assert (Hne' : walk (saved_slices N g E Z P lamda t_s sparse bounds m) a b <> []). { intros HW0. rewrite HW0 in H1. rewrite H1 in H2. exact (Qclt_not_le _ _ H2 (Qcle_refl _)). }
  specialize (HW Hne'). assert (Ht : t = t') by (rewrite H1, K1; now apply (same_duration (num_nodes_of N))). split; [exact Ht|].
  eapply eqm_trans; [exact H3|]. eapply eqm_trans; [|apply eqm_sym; exact K3]. now apply same_steps_average.
Qed.
(** The integral over several slices is what FlowIntegralClustering gives for the whole period in
    one slice, forwards or backwards, when nothing is rounded. *)
Lemma sorted_le bounds a b : SliceSpec.increasing bounds -> a <= b -> b < length bounds -> (nth a bounds 0 <= nth b bounds 0)%num.
Proof.
  intros HI. revert a b. induction HI as [|x l HI IH HF]; intros a b Hab Hb; [cbn in Hb; lia|]. destruct a as [|a], b as [|b]; cbn [nth]; [apply Qcle_refl| |lia|apply IH; cbn in Hb; lia].
  rewrite Forall_forall in HF. apply HF. apply nth_In. cbn in Hb. lia.
Qed.
Theorem C202_class_partial : forall fuel srcs tgts starts ends N g E Z P lamda t_s sparse sparse' bounds trans inds d m a b (back : bool) A t S kd rtol F,
  make_net fuel true false srcs tgts starts ends = Some N -> rows N <> [] -> ids_ok N = true -> no_self_contact (rows N) -> lasting (rows N) -> no_overlap (rows N) -> is_time_grid (rows N) g ->
  expm_ok (num_nodes_of N) E -> by_entries (num_nodes_of N) E -> (forall A, stochastic (num_nodes_of N) A -> stochastic (num_nodes_of N) (P A)) ->
  (forall A B, eqm (num_nodes_of N) A B -> eqm (num_nodes_of N) (P A) (P B)) -> (0 <= lamda)%num ->
  SliceSpec.increasing bounds -> trans_ok (num_nodes_of N) (saved_slices N g E Z P lamda t_s sparse bounds) trans -> increasing_nat inds ->
  history (num_nodes_of N) 0 (saved_slices N g E Z P lamda t_s sparse bounds) trans inds d ->
  a <= b -> b < length bounds -> (if back then d_int d m b a else d_int d m a b) = Some (Whole (A, t)) ->
  saved N g E Z P lamda t_s sparse' m (nth a bounds 0%num, nth b bounds 0%num) = Some S -> exact kd rtol ->
  flow_integral (num_nodes_of N) kd None (Some (s_inter S)) None (Some (s_times S)) None back rtol = Some F ->
  exists I, f_I F = [I] /\ eqm (num_nodes_of N) I (integral_of (num_nodes_of N) A t).
Proof.
  intros fuel srcs tgts starts ends N g E Z P lamda t_s sparse sparse' bounds trans inds d m a b back A t s kd rtol F HN Hne Hids Hself HLast HNo HG HE HB HP HPe Hx HI HT Hin HH Hab Hb Ed ES Hex EF.
  assert (Hn := has_nodes N Hne Hids). set (bounds' := [nth a bounds 0%num; nth b bounds 0%num]).
  assert (HI' : SliceSpec.increasing bounds') by (repeat constructor; now apply sorted_le).
  assert (HS := network_slices fuel srcs tgts starts ends N g E Z P lamda t_s HN Hne Hids Hself HLast HNo HG HE HP Hx).
  assert (HSO : slice_ok (num_nodes_of N) s) by (apply (HS sparse' bounds' HI' m 0); exact ES).
  assert (EW : walk (saved_slices N g E Z P lamda t_s sparse' bounds' m) (if back then 1 else 0) (if back then 0 else 1) = steps back (Some s)).
  { unfold walk, crossed. destruct back; cbn -[saved_slices steps]; change (saved_slices N g E Z P lamda t_s sparse' bounds' m 0) with (saved N g E Z P lamda t_s sparse' m (nth a bounds 0%num, nth b bounds 0%num)); rewrite ES; apply app_nil_r. }
  assert (HA : exists x, x = (if back then b else a) /\ exists y, y = (if back then a else b) /\ d_int d m x y = Some (Whole (A, t))) by (destruct back; do 2 (eexists; split; [reflexivity|]); exact Ed).
  destruct HA as (x & Ex & y & Ey & EA). destruct (C115_files_right _ _ _ _ _ Hn (HS sparse bounds HI) HT Hin HH m x y _ EA) as (A1 & t1 & E1 & H1 & H2 & _ & H3). assert (A1 = A /\ t1 = t) as [-> ->] by (split; congruence).
  assert (HW : same_steps (num_nodes_of N) (walk (saved_slices N g E Z P lamda t_s sparse bounds m) x y) (steps back (Some s))).
  { rewrite <- EW. apply (walks_same fuel srcs tgts starts ends N g E Z P lamda t_s HN Hne Hids Hself HLast HNo HG HE HB HP HPe Hx sparse sparse' bounds bounds' m x y); try assumption; subst x y; try (destruct back; cbn; lia); try (now destruct back).
    intros HW0. rewrite HW0 in H1. rewrite H1 in H2. exact (Qclt_not_le _ _ H2 (Qcle_refl _)). }
  assert (HLs : length (s_times s) = S (length (s_inter s))).
  { destruct HSO as ([HL|HL] & _); [exact HL|]. exfalso. assert (HD : diffs (s_times s) = []) by (apply length_zero_iff_nil; rewrite FlowProofs.diffs_length; lia). assert (H0 : steps back (Some s) = []) by (cbn [steps]; rewrite HD, combine_nil; now destruct back).
    rewrite H0 in HW. inversion HW as [HW0|]. rewrite <- HW0 in H1. rewrite H1 in H2. exact (Qclt_not_le _ _ H2 (Qcle_refl _)). }
  destruct (C85_default (num_nodes_of N) kd None (Some (s_inter s)) None (Some (s_times s)) back rtol F Hex Hn (proj1 (proj2 HSO)) (proj2 (proj2 (proj2 (proj2 HSO)))) EF) as (I & EI & HI0).
  { unfold flow_times. cbn [the_times given]. destruct back; [rewrite rev_length|]; exact HLs. }
  exists I. split; [exact EI|]. eapply eqm_trans; [exact HI0|]. cbn [given]. eapply eqm_trans; [exact (class_average _ back s HSO HLs)|]. apply eqm_sym. eapply eqm_trans; [exact H3|]. now apply same_steps_average.
Qed.
(** The third step, run_clusterings.py, loads the matrix of the whole period. *)
Theorem C202_loaded_partial : forall fuel srcs tgts starts ends N g E Z P lamda t_s sparse sparse' bounds trans inds d m a b (back : bool) norm A t S kd rtol F,
  make_net fuel true false srcs tgts starts ends = Some N -> rows N <> [] -> ids_ok N = true -> no_self_contact (rows N) -> lasting (rows N) -> no_overlap (rows N) -> is_time_grid (rows N) g ->
  expm_ok (num_nodes_of N) E -> by_entries (num_nodes_of N) E -> (forall A, stochastic (num_nodes_of N) A -> stochastic (num_nodes_of N) (P A)) ->
  (forall A B, eqm (num_nodes_of N) A B -> eqm (num_nodes_of N) (P A) (P B)) -> (0 <= lamda)%num ->
  SliceSpec.increasing bounds -> trans_ok (num_nodes_of N) (saved_slices N g E Z P lamda t_s sparse bounds) trans -> increasing_nat inds ->
  history (num_nodes_of N) 0 (saved_slices N g E Z P lamda t_s sparse bounds) trans inds d ->
  a <= b -> b < length bounds -> (if back then d_int d m b a else d_int d m a b) = Some (Whole (A, t)) ->
  saved N g E Z P lamda t_s sparse' m (nth a bounds 0%num, nth b bounds 0%num) = Some S -> exact kd rtol ->
  flow_integral (num_nodes_of N) kd None (Some (s_inter S)) None (Some (s_times S)) None back rtol = Some F ->
  exists B I, ClustModel.load_autocov (num_nodes_of N) norm A t = Some B /\ f_I F = [I] /\ eqm (num_nodes_of N) (AutocovModel.toarray B) I.
Proof.
  intros fuel srcs tgts starts ends N g E Z P lamda t_s sparse sparse' bounds trans inds d m a b back norm A t s kd rtol F HN Hne Hids Hself HLast HNo HG HE HB HP HPe Hx HI HT Hin HH Hab Hb Ed ES Hex EF.
  destruct (C202_class_partial fuel srcs tgts starts ends N g E Z P lamda t_s sparse sparse' bounds trans inds d m a b back A t s kd rtol F HN Hne Hids Hself HLast HNo HG HE HB HP HPe Hx HI HT Hin HH Hab Hb Ed ES Hex EF) as (I & EI & HA).
  assert (Hn := has_nodes N Hne Hids). assert (HS := network_slices fuel srcs tgts starts ends N g E Z P lamda t_s HN Hne Hids Hself HLast HNo HG HE HP Hx sparse bounds HI).
  assert (H1 : (0 * qn (num_nodes_of N) < 1)%num) by (replace (0 * qn (num_nodes_of N))%num with 0%num by ring; reflexivity).
  assert (HD : exists x y, d_int d m x y = Some (Whole (A, t))) by (destruct back; eexists; eexists; exact Ed). destruct HD as (x & y & HD).
  destruct (ClustProps.C122_rounded _ _ _ _ _ _ norm Hn (Qcle_refl _) H1 HS HT Hin HH m x y _ HD) as (M & u & B & EM & EB & HB1 & _). assert (M = A /\ u = t) as [-> ->] by (split; congruence).
  exists B, I. split; [exact EB|]. split; [exact EI|]. eapply eqm_trans; [exact HB1|]. now apply eqm_sym.
Qed.
(** With the exponentials the files the second step needs are there, and a task that starts
    without files of its own leaves all its integrals. *)
Theorem C202_computed_partial : forall fuel srcs tgts starts ends N g E Z P lamda t_s sparse bounds trans inds d mkl o sel dir t,
  make_net fuel true false srcs tgts starts ends = Some N -> rows N <> [] -> ids_ok N = true -> no_self_contact (rows N) -> lasting (rows N) -> no_overlap (rows N) -> is_time_grid (rows N) g ->
  expm_ok (num_nodes_of N) E -> (forall A, stochastic (num_nodes_of N) A -> stochastic (num_nodes_of N) (P A)) -> (0 <= lamda)%num ->
  SliceSpec.increasing bounds -> trans_ok (num_nodes_of N) (saved_slices N g E Z P lamda t_s sparse bounds) trans -> increasing_nat inds -> (forall k, In k inds -> k < length bounds) ->
  history (num_nodes_of N) 0 (saved_slices N g E Z P lamda t_s sparse bounds) trans inds d -> use_lin o = false -> In t (tasks sel dir inds) -> task_stops o inds t <> None ->
  (forall m b, d_int d m (nth (fst t) inds 0) b = None) ->
  snd (run_task (num_nodes_of N) 0%num None mkl (saved_slices N g E Z P lamda t_s sparse bounds) trans o inds t d) = Some tt /\
  forall a sts, task_stops o inds t = Some (a, sts) -> complete (saved_slices N g E Z P lamda t_s sparse bounds) o a sts (puts d (fst (run_task (num_nodes_of N) 0%num None mkl (saved_slices N g E Z P lamda t_s sparse bounds) trans o inds t d))).
Proof.
  intros fuel srcs tgts starts ends N g E Z P lamda t_s sparse bounds trans inds d mkl o sel dir t HN Hne Hids Hself HLast HNo HG HE HP Hx HI HT Hin Hlen HH Ho Ht Hs Hd.
  apply (C115_fresh_run (num_nodes_of N) _ trans inds d mkl o sel dir t (has_nodes N Hne Hids)); try assumption.
  - exact (network_slices fuel srcs tgts starts ends N g E Z P lamda t_s HN Hne Hids Hself HLast HNo HG HE HP Hx sparse bounds HI).
  - intros m k Hm (b & Hb & Hk). destruct m; [|cbn in Hm; congruence]. destruct (slice_bounds bounds k HI ltac:(specialize (Hlen b Hb); lia)) as [EN _]. unfold saved_slices. rewrite EN.
    destruct (saved_spec N g E Z P lamda t_s sparse (net_lap fuel srcs tgts starts ends N g HN Hne Hids Hself HLast HNo HG) (net_ok fuel srcs tgts starts ends N g HN Hne Hids Hself HG) HE HP Hx Expm (nth k bounds 0%num) (nth (S k) bounds 0%num))
      as (ka & kb & Ls & _ & _ & _ & _ & _ & _ & _ & [(_ & _ & Hm')|(l & -> & _)]); discriminate.
Qed.

Definition ex_grid39 := sorted_grid (rows net39).
Definition ex_data39 (bounds : list num) := saved_slices net39 ex_grid39 Estep (zeroed 3) (fun A => A) 1%num (qn 10) true bounds.
Definition no_trans : method -> bool -> nat -> option (mat * num) := fun _ _ _ => None.
Definition cut39 : list num := [qn 0; qn 1; qn 3].
Definition whole39b : list num := [qn 0; qn 3].
Definition ex_disk39 (bounds : list num) (inds : list nat) (t : nat * bool) : disk := puts empty_disk (firstn 100 (fst (run_task 3 0%num None true (ex_data39 bounds) no_trans both inds t empty_disk))).
Example C202_applies : make_net 0 true false [0; 1] [1; 2] [qn 0; qn 1] [qn 1; qn 3] = Some net39 /\ lasting (rows net39) /\ no_overlap (rows net39) /\
  by_entries 3 Estep /\ SliceSpec.increasing cut39 /\ SliceSpec.increasing whole39b /\
  history 3 0%num (ex_data39 cut39) no_trans [0; 2] (ex_disk39 cut39 [0; 2] (0, false)) /\ history 3 0%num (ex_data39 whole39b) no_trans [0; 1] (ex_disk39 whole39b [0; 1] (0, false)) /\
  (forall m, match d_int (ex_disk39 cut39 [0; 2] (0, false)) m 0 2, d_int (ex_disk39 whole39b [0; 1] (0, false)) m 0 1 with
             | Some (Whole (A, t)), Some (Whole (A', t')) => t = qn 3 /\ t' = qn 3 | _, _ => False end) /\
  map (fun s => length (s_inter s)) (flat_map (fun k => match ex_data39 cut39 Expm k with Some s => [s] | None => [] end) [0; 1]) = [1; 1] /\
  match ex_data39 whole39b Expm 0 with Some s => length (s_inter s) = 2 /\ nth 0 (s_inter s) ident 0 1 = qf 1 2 /\ flow_integral 3 Dense None (Some (s_inter s)) None (Some (s_times s)) None true None <> None | None => False end.
Proof.
  split; [reflexivity|]. split; [intros e; in_cases; apply qn_lt; lia|]. split.
  { intros a b e f i j [Ha|[Ha|[]]] [Hb|[Hb|[]]] Hab Hj Hj'; injection Ha as <- <-; injection Hb as <- <-; try congruence; exfalso; destruct Hj as [[]|[]], Hj' as [[]|[]]; cbn in *; congruence. }
  split; [intros x L L' H i j Hi Hj; unfold Estep, mminus, mscal; now rewrite (H i j Hi Hj)|]. split; [repeat constructor; apply qn_le; lia|]. split; [repeat constructor; apply qn_le; lia|].
  split; [apply (history_run _ _ _ _ _ _ EveryStart Both (0, false) both true 100); [apply history_start|cbn; tauto]|].
  split; [apply (history_run _ _ _ _ _ _ EveryStart Both (0, false) both true 100); [apply history_start|cbn; tauto]|].
  split; [intros [|]; vm_compute; split; now apply Qc_is_canon|]. split; [vm_compute; reflexivity|].
  assert (K : match ex_data39 whole39b Expm 0 with Some s => length (s_inter s) = 2 /\ qeqb (nth 0 (s_inter s) ident 0 1) (qf 1 2) = true /\ (match flow_integral 3 Dense None (Some (s_inter s)) None (Some (s_times s)) None true None with Some _ => true | None => false end) = true | None => False end) by (vm_compute; auto).
  destruct (ex_data39 whole39b Expm 0) as [s|]; [|exact K]. destruct K as (K1 & K2 & K3). split; [exact K1|]. split; [|now destruct (flow_integral _ _ _ _ _ _ _ _ _)]. now destruct (qeqb_spec (nth 0 (s_inter s) ident 0 1) (qf 1 2)).
Qed.

(** Two contacts of a pair overlap, from 0 to 4 and from 2 to 6: cut at 5, the second one counts
    from 5 on, which in one slice the end of the first has interrupted (C134). *)
Definition ex_data134 (bounds : list num) := saved_slices net134 (sorted_grid (rows net134)) Estep (zeroed 3) (fun A => A) 1%num (qn 10) true bounds.
Definition cut134 : list num := [qn 0; qn 5; qn 6].
Definition whole134 : list num := [qn 0; qn 6].
Definition ex_disk134 (bounds : list num) (inds : list nat) : disk := puts empty_disk (firstn 100 (fst (run_task 3 0%num None true (ex_data134 bounds) no_trans both inds (0, false) empty_disk))).
Definition slice_okb (s : slice) : bool :=
  ((length (s_times s) =? S (length (s_inter s))) || (length (s_times s) =? 1)) &&
  forallb (fun j => forallb (fun i => qltb (nth i (s_times s) 0%num) (nth j (s_times s) 0%num)) (seq 0 j)) (seq 0 (length (s_times s))) &&
  qeqb (s_start s) (nth 0 (s_times s) 0%num) && qeqb (s_stop s) (nth (length (s_times s) - 1) (s_times s) 0%num) &&
  forallb (fun A : mat => forallb (fun i => forallb (fun j => qleb 0%num (A i j)) (seq 0 3) && qeqb (sumN 3 (A i)) 1%num) (seq 0 3)) (s_inter s).
Lemma slice_okb_ok s : slice_okb s = true -> slice_ok 3 s.
Proof.
  unfold slice_okb. rewrite !andb_true_iff, orb_true_iff, !Nat.eqb_eq, !forallb_forall. intros ((((H1 & H2) & H3) & H4) & H5). split; [exact H1|]. split.
  { intros i j Hij Hj. specialize (H2 j ltac:(apply in_seq; lia)). rewrite forallb_forall in H2. specialize (H2 i ltac:(apply in_seq; lia)). now destruct (qltb_spec (nth i (s_times s) 0%num) (nth j (s_times s) 0%num)). }
  split; [now destruct (qeqb_spec (s_start s) (nth 0 (s_times s) 0%num))|]. split; [now destruct (qeqb_spec (s_stop s) (nth (length (s_times s) - 1) (s_times s) 0%num))|].
  intros A HA. specialize (H5 A HA). rewrite forallb_forall in H5. split; [intros i j Hi Hj|intros i Hi]; specialize (H5 i ltac:(apply in_seq; lia)); rewrite andb_true_iff, forallb_forall in H5.
  - destruct H5 as [H5 _]. specialize (H5 j ltac:(apply in_seq; lia)). now destruct (qleb_spec 0%num (A i j)).
  - destruct H5 as [_ H5]. now destruct (qeqb_spec (sumN 3 (A i)) 1%num).
Qed.
Lemma slices134 bounds : (bounds = cut134 \/ bounds = whole134) -> all_slices_ok 3 (ex_data134 bounds).
Proof.
  intros HB m k s ES. apply slice_okb_ok. assert (K : match ex_data134 bounds m k with Some s => slice_okb s | None => true end = true).
  { destruct HB as [-> | ->], m; (destruct k as [|[|k]]; [vm_compute; reflexivity|vm_compute; reflexivity|]); unfold ex_data134, saved_slices; cbn; now destruct k. }
  now rewrite ES in K.
Qed.
Lemma pair_increasing b : 0 < b -> increasing_nat [0; b].
Proof. intros Hb [|[|i]] [|[|j]] Hi Hj; cbn in *; lia. Qed.
Theorem C202_overlap_refuted : ~ C202_statement.
Proof.
  intros H.
  assert (HF : forall bounds inds b, (bounds = cut134 \/ bounds = whole134) -> increasing_nat inds -> In (0, false) (tasks EveryStart Both inds) -> (match d_int (ex_disk134 bounds inds) Expm 0 b with Some _ => true | None => false end) = true ->
    history 3 0%num (ex_data134 bounds) no_trans inds (ex_disk134 bounds inds) /\ exists A t, d_int (ex_disk134 bounds inds) Expm 0 b = Some (Whole (A, t)) /\ holds_average 3 (ex_data134 bounds Expm) 0 b A t).
  { intros bounds inds b HB HI HT HD. assert (HH : history 3 0%num (ex_data134 bounds) no_trans inds (ex_disk134 bounds inds)) by (apply (history_run _ _ _ _ _ _ EveryStart Both (0, false) both true 100); [apply history_start|exact HT]).
    split; [exact HH|]. destruct (d_int (ex_disk134 bounds inds) Expm 0 b) as [x|] eqn:E; [|discriminate]. assert (HTr : trans_ok 3 (ex_data134 bounds) no_trans) by (intros m back k A t HA; discriminate HA).
    destruct (C115_files_right 3 _ _ _ _ ltac:(lia) (slices134 bounds HB) HTr HI HH Expm 0 b x E) as (A & t & -> & HA). now exists A, t. }
  destruct (HF cut134 [0; 2] 2 (or_introl eq_refl)) as (H1 & A & t & E1 & _ & _ & _ & A1); [apply pair_increasing; lia|now left|vm_compute; reflexivity|].
  destruct (HF whole134 [0; 1] 1 (or_intror eq_refl)) as (H2 & A' & t' & E2 & _ & _ & _ & A2); [apply pair_increasing; lia|now left|vm_compute; reflexivity|].
  destruct (H 0 [0; 0; 1] [1; 1; 2] [qn 0; qn 2; qn 5] [qn 4; qn 6; qn 6] net134 (sorted_grid (rows net134)) Estep (zeroed 3) (fun A => A) 1%num (qn 10) true true cut134 whole134 no_trans no_trans [0; 2] [0; 1] (ex_disk134 cut134 [0; 2]) (ex_disk134 whole134 [0; 1]) Expm 0 2 0 1 A t A' t') as [_ HA]; [..|].
  - exact net134_made.
  - discriminate.
  - reflexivity.
  - intros e; in_cases; cbn; lia.
  - intros e; in_cases; apply qn_lt; lia.
  - apply grid_exists.
  - apply Estep_ok.
  - intros x L L' HL i j Hi Hj; unfold Estep, mminus, mscal; now rewrite (HL i j Hi Hj).
  - intros B HB; exact HB.
  - intros B C HBC; exact HBC.
  - discriminate.
  - repeat constructor; apply qn_le; lia.
  - repeat constructor; apply qn_le; lia.
  - intros m back k B u HB; discriminate HB.
  - intros m back k B u HB; discriminate HB.
  - apply pair_increasing; lia.
  - apply pair_increasing; lia.
  - exact H1.
  - exact H2.
  - cbn; lia.
  - cbn; lia.
  - cbn; lia.
  - cbn; lia.
  - reflexivity.
  - reflexivity.
  - exact E1.
  - exact E2.
  - change (num_nodes_of net134) with 3 in HA. specialize (HA 0 0 ltac:(lia) ltac:(lia)). rewrite (A1 0 0 ltac:(lia) ltac:(lia)), (A2 0 0 ltac:(lia) ltac:(lia)) in HA.
    apply (f_equal (fun q => qeqb q (qf 14 243))) in HA. revert HA. clear. vm_compute. discriminate.
Qed.

Print Assumptions C202_overlap_refuted.
Print Assumptions C202_slicings_partial.
Print Assumptions C202_class_partial.
Print Assumptions C202_loaded_partial.
Print Assumptions C202_computed_partial.
