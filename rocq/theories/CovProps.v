(** Saved integrals: C115-C121. *)
From Verif Require Import Base LouvainModel SparseModel EventsModel EventsSpec TransModel TransSpec TransProps MatProofs FlowModel FlowSpec FlowProofs CovModel CovSpec CovProofs CovTaskProofs.
Local Open Scope bool_scope.

(** An example: two nodes, intervals of two steps. *)
Definition ex_slice (k : nat) : slice := mkSlice [lazy (qf 1 4); swap01] [qn (2 * k); qn (2 * k + 1); qn (2 * k + 2)] (qn (2 * k)) (qn (2 * k + 2)).
Definition ex_inter : method -> nat -> option slice := fun _ k => Some (ex_slice k).
Definition ex_trans : method -> bool -> nat -> option (mat * num) := fun _ back _ =>
  Some (chain 2 (if back then [swap01; lazy (qf 1 4)] else [lazy (qf 1 4); swap01]), 2%num).
Lemma ex_slices : all_slices_ok 2 ex_inter.
Proof.
  intros m k s E. injection E as <-. assert (H : forall a, (qn a < qn (S a))%num) by (intros a; apply qn_lt; lia).
  split; [now left|]. split; [|split; [reflexivity|split; [reflexivity|]]].
  - intros a b Hab Hb. cbn [s_times ex_slice length] in Hb. destruct a as [|[|a]], b as [|[|[|b]]]; try lia; apply qn_lt; lia.
  - intros A [<-|[<-|[]]]; [apply lazy_stochastic; discriminate|apply swap01_stochastic].
Qed.
Lemma ex_transitions : trans_ok 2 ex_inter ex_trans.
Proof.
  intros m back k A t E. exists (ex_slice k). split; [reflexivity|]. injection E as <- <-. split; [destruct back; apply eqm_refl|].
  cbn [s_stop s_start ex_slice]. rewrite qn_plus. replace (qn (2 * k) + qn 2 - qn (2 * k))%num with 2%num by (change (qn 2) with 2%num; ring). reflexivity.
Qed.
Definition ex_inds : list nat := [0; 2; 3].
Lemma ex_increasing : increasing_nat ex_inds.
Proof. intros i j Hij Hj. cbn in Hj. destruct i as [|[|i]], j as [|[|[|j]]]; cbn; lia. Qed.
Definition only_expm : options := mkOpts true false false true.
Definition both : options := mkOpts true true false false.
Lemma ex_there o : inter_there ex_inter o ex_inds /\ (forall back, trans_there ex_trans o ex_inds back).
Proof. split; [intros m k _ _; discriminate|intros back m k _ _; discriminate]. Qed.

(** * C115: the integral of every file *)
Theorem C115_files_right : forall n inter trans inds d, 0 < n -> all_slices_ok n inter -> trans_ok n inter trans -> increasing_nat inds ->
  history n 0%num inter trans inds d ->
  forall m a b x, d_int d m a b = Some x -> exists A t, x = Whole (A, t) /\ holds_average n (inter m) a b A t.
Proof.
  intros n inter trans inds d Hn HS HT HI H m a b x E. assert (H1 : (0 * qn n < 1)%num) by (replace (0 * qn n)%num with 0%num by ring; reflexivity).
  destruct (history_right n 0%num Hn (Qcle_refl _) H1 inter trans HS HT inds HI d H) as [HD _]. destruct (HD m a b x E) as (A & t & -> & HR).
  exists A, t. split; [reflexivity|]. now apply (right_average n 0%num Hn).
Qed.
(** started without files from this interval, a task writes all its integrals, and no other *)
Theorem C115_fresh_run : forall n inter trans inds d mkl o sel dir t, 0 < n -> all_slices_ok n inter -> trans_ok n inter trans -> increasing_nat inds ->
  history n 0%num inter trans inds d -> In t (tasks sel dir inds) -> task_stops o inds t <> None -> inter_there inter o inds ->
  (forall m b, d_int d m (nth (fst t) inds 0) b = None) ->
  snd (run_task n 0%num None mkl inter trans o inds t d) = Some tt /\
  forall a sts, task_stops o inds t = Some (a, sts) -> complete inter o a sts (puts d (fst (run_task n 0%num None mkl inter trans o inds t d))).
Proof.
  intros n inter trans inds d mkl o sel dir t Hn HS HT HI H Ht Hs Hi HE. assert (H1 : (0 * qn n < 1)%num) by (replace (0 * qn n)%num with 0%num by ring; reflexivity).
  assert (HD := history_right n 0%num Hn (Qcle_refl _) H1 inter trans HS HT inds HI d H).
  destruct (run_task_ok n 0%num Hn (Qcle_refl _) H1 inter trans HS HT inds HI mkl True o sel dir t d HD Ht (fun _ => Hs) (fun _ => Hi) (fun _ => or_introl HE)) as [_ HQ].
  destruct (snd _) as [[]|]; [auto|tauto].
Qed.
Example C115_applies : 0 < 2 /\ all_slices_ok 2 ex_inter /\ trans_ok 2 ex_inter ex_trans /\ increasing_nat ex_inds /\ In (0, false) (tasks EveryStart Both ex_inds) /\
  task_stops both ex_inds (0, false) = Some (0, [2; 3]) /\ inter_there ex_inter both ex_inds /\ duration (walk (ex_inter Lin) 0 3) = qn 6 /\
  exists x, d_int (puts empty_disk (fst (run_task 2 0%num None true ex_inter ex_trans both ex_inds (0, false) empty_disk))) Lin 0 3 = Some x.
Proof.
  split; [lia|]. split; [exact ex_slices|]. split; [exact ex_transitions|]. split; [exact ex_increasing|]. split; [cbn; tauto|]. split; [reflexivity|]. split; [apply ex_there|].
  split; [vm_compute; now apply Qc_is_canon|].
  destruct (d_int (puts empty_disk (fst (run_task 2 0%num None true ex_inter ex_trans both ex_inds (0, false) empty_disk))) Lin 0 3) as [x|] eqn:E; [now exists x|].
  exfalso. apply (f_equal (fun o => match o with Some _ => true | None => false end)) in E. vm_compute in E. discriminate E.
Qed.

(** * C116: with rounding *)
Lemma walk_nonneg n data a b x : (forall k s, data k = Some s -> slice_ok n s) -> In x (walk data a b) -> (0 <= snd x)%num.
Proof.
  intros H Hx. unfold walk in Hx. apply in_flat_map in Hx. destruct Hx as (k & _ & Hx). destruct (data k) as [s|] eqn:E; [|destruct Hx]. exact (steps_nonneg n _ s x (H k s E) Hx).
Qed.
Lemma average_cov n Ts w : 0 < n -> length Ts = length w -> (forall T, In T Ts -> stochastic n T) -> (forall x, In x w -> (0 <= snd x)%num) -> (0 < duration w)%num -> covariance_like n (average n Ts w).
Proof.
  intros Hn HL HS HW HD. assert (Hp : distribution n (fun _ => 1 / qn n)%num) by exact (uniform_ok n Hn).
  set (f := fun k => (snd (nth k w (ident, 0%num)))).
  assert (HG : forall m, m <= length w -> covariance_like n (fun i j => sumN m (fun k => f k * flow_cov n (fun _ => 1 / qn n) (nth k Ts ident) i j))%num).
  { induction m as [|m IH]; intros Hm; [exact (covariance_ext n _ _ (eqm_refl n _) (covariance_zero n))|].
    refine (covariance_ext n _ _ _ (covariance_add n _ _ (IH ltac:(lia)) (covariance_scal n (f m) (flow_cov n (fun _ => 1 / qn n)%num (nth m Ts ident)) _ _))).
    - intros i j _ _. rewrite sumN_S. reflexivity.
    - apply HW, nth_In. lia.
    - apply cov_covariance; [exact Hp|apply HS, nth_In; lia]. }
  refine (covariance_ext n _ _ _ (covariance_scal n (/ duration w)%num _ _ (HG (length w) (le_n _)))).
  - intros i j _ _. unfold mscal, average. fold f. set (X := sumN _ _). change (/ duration w * X = X * / duration w)%num. ring.
  - apply Qclt_le_weak. now apply qinv_pos.
Qed.
Theorem C116_covariance : forall n tol inter trans inds d, 0 < n -> (0 <= tol)%num -> (tol * qn n < 1)%num -> all_slices_ok n inter -> trans_ok n inter trans -> increasing_nat inds ->
  history n tol inter trans inds d ->
  forall m a b x, d_int d m a b = Some x -> exists A t, x = Whole (A, t) /\ holds_rounded n (inter m) a b A t /\ covariance_like n (integral_of n A t).
Proof.
  intros n tol inter trans inds d Hn H0 H1 HS HT HI H m a b x E.
  destruct (history_right n tol Hn H0 H1 inter trans HS HT inds HI d H) as [HD _]. destruct (HD m a b x E) as (A & t & -> & HR).
  exists A, t. split; [reflexivity|]. assert (HH := right_rounded n tol Hn (inter m) a b A t HR). split; [exact HH|].
  destruct HH as (Ht & Hp & _ & Ts & HL & HTs & HE). apply (covariance_ext n _ _ (eqm_sym n _ _ HE)). apply average_cov; try assumption.
  - intros y Hy. apply (walk_nonneg n (inter m) a b y); [intros k s; apply HS|exact Hy].
  - now rewrite <- Ht.
Qed.
Example C116_applies : (0 <= qf 1 10)%num /\ (qf 1 10 * qn 2 < 1)%num /\ all_slices_ok 2 ex_inter /\ trans_ok 2 ex_inter ex_trans /\
  exists x, d_int (puts empty_disk (firstn 7 (fst (run_task 2 (qf 1 10) None false ex_inter ex_trans both ex_inds (2, true) empty_disk)))) Expm 3 0 = Some x.
Proof.
  split; [discriminate|]. split; [reflexivity|]. split; [exact ex_slices|]. split; [exact ex_transitions|].
  destruct (d_int (puts empty_disk (firstn 7 (fst (run_task 2 (qf 1 10) None false ex_inter ex_trans both ex_inds (2, true) empty_disk)))) Expm 3 0) as [x|] eqn:E; [now exists x|].
  exfalso. apply (f_equal (fun o => match o with Some _ => true | None => false end)) in E. vm_compute in E. discriminate E.
Qed.

(** * C117: starting again after an interruption *)
(** the integrals of the task are there after it has run again *)
Definition run_again (n : nat) (mkl : bool) inter trans (o : options) (inds : list nat) (t : nat * bool) (d : disk) : Prop :=
  snd (run_task n 0%num None mkl inter trans o inds t d) = Some tt /\
  forall a sts, task_stops o inds t = Some (a, sts) -> complete inter o a sts (puts d (fst (run_task n 0%num None mkl inter trans o inds t d))).
Definition C117_statement : Prop := forall n inter trans inds d mkl o sel dir t, 0 < n -> all_slices_ok n inter -> trans_ok n inter trans -> increasing_nat inds ->
  history n 0%num inter trans inds d -> In t (tasks sel dir inds) -> task_stops o inds t <> None -> inter_there inter o inds ->
  trans_there trans o inds (snd t) -> run_again n mkl inter trans o inds t d.
Theorem C117_both_methods_refuted : ~ C117_statement.
Proof.
  intros H. specialize (H 2 ex_inter ex_trans ex_inds _ false both EveryStart Both (0, false) ltac:(lia) ex_slices ex_transitions ex_increasing
    (history_run 2 0%num ex_inter ex_trans ex_inds _ EveryStart Both (0, false) both false 1 (history_start _ _ _ _ _) ltac:(cbn; tauto)) ltac:(cbn; tauto) ltac:(discriminate) (proj1 (ex_there both)) (proj2 (ex_there both) _)).
  destruct H as [H _]. apply (f_equal (fun o => match o with Some _ => true | None => false end)) in H. vm_compute in H. discriminate H.
Qed.
(** without the transition matrices of the intervals, which are not saved by default *)
Definition C117_no_slices_statement : Prop := forall n inter trans inds d mkl o sel dir t, 0 < n -> all_slices_ok n inter -> trans_ok n inter trans -> increasing_nat inds ->
  history n 0%num inter trans inds d -> In t (tasks sel dir inds) -> task_stops o inds t <> None -> inter_there inter o inds ->
  use_expm o <> use_lin o -> run_again n mkl inter trans o inds t d.
Theorem C117_no_slices_refuted : ~ C117_no_slices_statement.
Proof.
  intros H. specialize (H 2 ex_inter (fun _ _ _ => None) ex_inds _ false only_expm EveryStart Both (0, false) ltac:(lia) ex_slices ltac:(intros m b k A t E; discriminate E) ex_increasing
    (history_run 2 0%num ex_inter (fun _ _ _ => None) ex_inds _ EveryStart Both (0, false) only_expm false 3 (history_start _ _ _ _ _) ltac:(cbn; tauto)) ltac:(cbn; tauto) ltac:(discriminate) (proj1 (ex_there only_expm)) ltac:(discriminate)).
  destruct H as [H _]. apply (f_equal (fun o => match o with Some _ => true | None => false end)) in H. vm_compute in H. discriminate H.
Qed.
(** interrupted while writing the file number q *)
Definition C117_torn_statement : Prop := forall n inter trans inds mkl o sel dir t q w, 0 < n -> all_slices_ok n inter -> trans_ok n inter trans -> increasing_nat inds ->
  In t (tasks sel dir inds) -> task_stops o inds t <> None -> inter_there inter o inds -> trans_there trans o inds (snd t) -> use_expm o <> use_lin o ->
  nth_error (fst (run_task n 0%num None mkl inter trans o inds t empty_disk)) q = Some w ->
  let d := put false (puts empty_disk (firstn q (fst (run_task n 0%num None mkl inter trans o inds t empty_disk)))) w in
  let d' := puts d (fst (run_task n 0%num None mkl inter trans o inds t d)) in
  forall m a b x, d_int d' m a b = Some x -> x <> Torn.
Theorem C117_torn_refuted : ~ C117_torn_statement.
Proof.
  intros H. destruct (nth_error (fst (run_task 2 0%num None false ex_inter ex_trans (mkOpts false true false false) ex_inds (0, false) empty_disk)) 1) as [w|] eqn:E.
  - specialize (H 2 ex_inter ex_trans ex_inds false (mkOpts false true false false) EveryStart Both (0, false) 1 w ltac:(lia) ex_slices ex_transitions ex_increasing ltac:(cbn; tauto) ltac:(discriminate)
      (proj1 (ex_there _)) (proj2 (ex_there _) _) ltac:(discriminate) E Lin 0 3 Torn). cbv zeta in H. apply H; [|reflexivity]. clear H.
    assert (Ew : match w with WInt m a b _ _ => method_eqb m Lin && (a =? 0) && (b =? 3) | _ => false end = true).
    { apply (f_equal (fun o => match o with Some (WInt m a b _ _) => method_eqb m Lin && (a =? 0) && (b =? 3) | _ => false end)) in E. rewrite <- E. now vm_compute. }
    destruct w as [m a b A t|]; [|discriminate Ew]. apply andb_prop in Ew. destruct Ew as [Ew Eb]. apply andb_prop in Ew. destruct Ew as [Em Ea]. apply method_eqb_eq in Em. apply Nat.eqb_eq in Ea, Eb. subst m a b. clear E.
    set (d := put false (puts empty_disk (firstn 1 (fst (run_task 2 0%num None false ex_inter ex_trans (mkOpts false true false false) ex_inds (0, false) empty_disk)))) (WInt Lin 0 3 A t)).
    assert (E1 : run_task 2 0%num None false ex_inter ex_trans (mkOpts false true false false) ex_inds (0, false) d = ([], Some tt)).
    { unfold run_task. cbn [task_stops fst snd nth_error ex_inds stops only_one skipn]. unfold worker. cbn [use_expm use_lin]. unfold bind at 1. cbn [ret]. unfold bind at 1. unfold resume at 1.
      assert (Em : map (exists_int d Lin 0) [2; 3] = [true; true]) by (now vm_compute). cbn [puts fold_left]. rewrite Em. reflexivity. }
    rewrite E1. reflexivity.
  - exfalso. apply (f_equal (fun o => match o with Some _ => true | None => false end)) in E. vm_compute in E. discriminate E.
Qed.
(** What holds: with one method, and the transition matrices of the intervals, whatever runs
    were interrupted before. *)
Theorem C117_one_method_partial : forall n inter trans inds d mkl o sel dir t, 0 < n -> all_slices_ok n inter -> trans_ok n inter trans -> increasing_nat inds ->
  history n 0%num inter trans inds d -> In t (tasks sel dir inds) -> task_stops o inds t <> None -> inter_there inter o inds ->
  trans_there trans o inds (snd t) -> use_expm o <> use_lin o -> run_again n mkl inter trans o inds t d /\
  forall m a b x, d_int (puts d (fst (run_task n 0%num None mkl inter trans o inds t d))) m a b = Some x -> exists A s, x = Whole (A, s) /\ holds_average n (inter m) a b A s.
Proof.
  intros n inter trans inds d mkl o sel dir t Hn HS HT HI H Ht Hs Hi Htt Ho. assert (H1 : (0 * qn n < 1)%num) by (replace (0 * qn n)%num with 0%num by ring; reflexivity).
  assert (HD := history_right n 0%num Hn (Qcle_refl _) H1 inter trans HS HT inds HI d H).
  destruct (run_task_ok n 0%num Hn (Qcle_refl _) H1 inter trans HS HT inds HI mkl True o sel dir t d HD Ht (fun _ => Hs) (fun _ => Hi) (fun _ => or_intror (conj Ho Htt))) as [HW HQ].
  split.
  - unfold run_again. destruct (snd (run_task n 0%num None mkl inter trans o inds t d)) as [[]|]; [auto|tauto].
  - intros m a b x E. destruct (right_puts n 0%num inter _ d HD HW) as [HP _]. destruct (HP m a b x E) as (A & s & -> & HR). exists A, s. split; [reflexivity|]. now apply (right_average n 0%num Hn).
Qed.
Example C117_applies : use_expm only_expm <> use_lin only_expm /\ task_stops only_expm ex_inds (0, false) = Some (0, [2; 3]) /\ trans_there ex_trans only_expm ex_inds false /\
  history 2 0%num ex_inter ex_trans ex_inds (puts empty_disk (firstn 3 (fst (run_task 2 0%num None true ex_inter ex_trans only_expm ex_inds (0, false) empty_disk)))) /\
  map (fun w => match w with WInt m a b _ _ => (true, a, b) | WTmp a b _ _ => (false, a, b) end) (fst (run_task 2 0%num None true ex_inter ex_trans only_expm ex_inds (0, false) empty_disk)) =
    [(false, 0, 1); (false, 0, 2); (true, 0, 2); (false, 0, 3); (true, 0, 3)].
Proof.
  split; [discriminate|]. split; [reflexivity|]. split; [apply ex_there|]. split.
  - apply (history_run 2 0%num ex_inter ex_trans ex_inds empty_disk EveryStart Both (0, false) only_expm true 3); [apply history_start|cbn; tauto].
  - now vm_compute.
Qed.

(** * C118: the pairs of intervals *)
Theorem C118_tasks : forall o sel dir inds, increasing_nat inds -> 2 <= length inds ->
  NoDup (integrated o inds (tasks sel dir inds)) /\ (forall t, In t (tasks sel dir inds) -> task_stops o inds t <> None) /\
  forall a b, In (a, b) (integrated o inds (tasks sel dir inds)) <-> wanted o sel dir inds a b.
Proof.
  intros o sel dir inds HI H2. split; [now apply integrated_NoDup|]. split; [intros t Ht; exact (tasks_run o sel dir inds HI H2 t Ht)|]. now apply integrated_wanted.
Qed.
Example C118_applies : increasing_nat ex_inds /\ 2 <= length ex_inds /\ integrated both ex_inds (tasks EveryStart Both ex_inds) = [(0, 2); (0, 3); (2, 3); (2, 0); (3, 2); (3, 0)] /\
  integrated (mkOpts true true true false) ex_inds (tasks EveryStart Forward ex_inds) = [(0, 2); (2, 3)].
Proof. split; [exact ex_increasing|]. split; [cbn; lia|]. split; reflexivity. Qed.

(** * C119: the grid *)
(** a grid of [num_points] steps from the beginning to the end of the data *)
Definition C119_statement : Prop := forall num_points count, 0 < num_points -> 0 < count ->
  exists l, grid num_points None [] count = Some l /\ length l = S num_points /\ nth 0 l 0 = 0 /\ nth (length l - 1) l 0 = count.
(** fewer intervals than points *)
Theorem C119_few_intervals_refuted : ~ C119_statement /\ forall num_points count, count < num_points -> grid num_points None [] count = None.
Proof.
  assert (H : forall num_points count, count < num_points -> grid num_points None [] count = None).
  { intros p c Hc. unfold grid, step_of. destruct p as [|p]; [lia|]. now rewrite Nat.div_small by exact Hc. }
  split; [|exact H]. intros HS. destruct (HS 50 10 ltac:(lia) ltac:(lia)) as (l & E & _). rewrite H in E by lia. discriminate E.
Qed.
(** the last intervals are dropped *)
Definition C119_end_statement : Prop := forall num_points count, 0 < num_points -> num_points <= count ->
  exists l, grid num_points None [] count = Some l /\ nth (length l - 1) l 0 = count.
Theorem C119_last_intervals_refuted : ~ C119_end_statement.
Proof. intros H. destruct (H 4 11 ltac:(lia) ltac:(lia)) as (l & E & Hl). vm_compute in E. injection E as <-. discriminate Hl. Qed.
(** What holds: a regular grid within the data, which ends less than one step before the end;
    at the end when its step divides the number of intervals. *)
Theorem C119_regular_partial : forall num_points int_length count k, step_of num_points int_length count = Some k -> 0 < k ->
  exists l, grid num_points int_length [] count = Some l /\ increasing_nat l /\ (forall i, i < length l -> nth i l 0 = i * k) /\ (forall b, In b l -> b <= count) /\
    count < nth (length l - 1) l 0 + k /\ (count mod k = 0 -> nth (length l - 1) l 0 = count) /\
    (int_length = None -> count mod num_points = 0 -> length l = S num_points /\ nth (length l - 1) l 0 = count).
Proof.
  intros p il count k Hk H0. unfold grid. rewrite Hk. destruct (range_by_spec count k H0) as (l & -> & HI & HL & HN & HB). exists l. split; [reflexivity|]. split; [exact HI|]. split; [exact HN|]. split; [exact HB|].
  assert (HE : nth (length l - 1) l 0 = count / k * k) by (rewrite HN by lia; rewrite HL; f_equal; lia). rewrite HE. assert (HM := Nat.div_mod count k ltac:(lia)). assert (HU := Nat.mod_upper_bound count k ltac:(lia)).
  split; [nia|]. split; [intros E; nia|]. intros -> E. unfold step_of in Hk. destruct p as [|p]; [discriminate|]. assert (Hk' : k = count / S p) by congruence. clear Hk.
  assert (HM' := Nat.div_mod count (S p) ltac:(lia)). rewrite E in HM'. rewrite <- Hk' in HM'. assert (E2 : count / k = S p).
  { rewrite HM', Nat.add_0_r. apply Nat.div_mul; lia. }
  rewrite HL, E2. split; [reflexivity|lia].
Qed.
Example C119_applies : step_of 3 None 9 = Some 3 /\ grid 3 None [] 9 = Some [0; 3; 6; 9] /\ grid 3 (Some 4) [] 9 = Some [0; 4; 8].
Proof. split; [reflexivity|]. split; reflexivity. Qed.

(** * C120: tasks that run at the same time *)
(** The result and the writes of a task depend only on the files of its own, those named after
    its start on its side of it; it writes to these only; and no two tasks have any in
    common. *)
Theorem C120_no_sharing : forall n tol rtol mkl inter trans inds o sel dir t a sts d d', increasing_nat inds -> In t (tasks sel dir inds) -> task_stops o inds t = Some (a, sts) -> same_own (snd t) a d d' ->
  run_task n tol rtol mkl inter trans o inds t d = run_task n tol rtol mkl inter trans o inds t d' /\ Forall (own (snd t) a) (fst (run_task n tol rtol mkl inter trans o inds t d)) /\
  (forall t2 a2 sts2 w, In t2 (tasks sel dir inds) -> task_stops o inds t2 = Some (a2, sts2) -> t2 <> t -> own (snd t2) a2 w -> ~ own (snd t) a w /\ forall d0, same_own (snd t) a d0 (put true d0 w)).
Proof.
  intros n tol rtol mkl inter trans inds o sel dir t a sts d d' HI Ht E HS.
  assert (HN : inds <> []) by (intros ->; unfold task_stops in E; destruct (fst t); discriminate E).
  assert (HP := task_proper sel dir inds t HN Ht). destruct (task_line o inds t a sts HI HP E) as (HL & Ha & HC).
  assert (HW := worker_local n tol rtol mkl inter trans (snd t) a o sts (task_own o inds t a sts HI HP E) HL d d' HS).
  unfold run_task. rewrite E. split; [apply HW|]. split; [apply HW|]. intros t2 a2 sts2 w Ht2 E2 Hne Hw.
  assert (Hd : ~ own (snd t) a w).
  { intros Hw'. apply Hne.
    assert (HA : forall t a sts, In t (tasks sel dir inds) -> task_stops o inds t = Some (a, sts) -> fst t < length inds /\ nth (fst t) inds 0 = a).
    { clear. intros t a sts _ E. unfold task_stops in E. destruct (nth_error inds (fst t)) as [z|] eqn:Ez; [|discriminate]. destruct (stops _ _ _ _); [|discriminate]. injection E as <- _. split; [apply nth_error_Some; congruence|now apply nth_error_nth]. }
    destruct (HA t a sts Ht E) as [Hi Ea], (HA t2 a2 sts2 Ht2 E2) as [Hi2 Ea2].
    assert (Haa : a2 = a /\ snd t2 = snd t). { unfold own, own_side in *. destruct w as [m x b A s|x b y k]; destruct Hw as [-> Hb], Hw' as [-> Hb']; (split; [reflexivity|]); destruct (snd t), (snd t2); try reflexivity; lia. }
    destruct Haa as [-> Hr]. assert (Eij := index_inj inds _ _ HI Hi2 Hi (eq_trans Ea2 (eq_sym Ea))). destruct t, t2; cbn in *; congruence. }
  split; [exact Hd|]. intros d0. destruct w as [m x b A s|x b y k]; split; cbn [put d_int d_tmp]; try reflexivity.
  - intros m' b' Hb'. destruct (method_eqb m' m && (a =? x) && (b' =? b)) eqn:EE; [|reflexivity]. exfalso. apply Hd. apply andb_prop in EE. destruct EE as [EE Eb]. apply andb_prop in EE. destruct EE as [_ Ex]. apply Nat.eqb_eq in Ex, Eb. subst. split; [reflexivity|exact Hb'].
  - intros b' Hb'. destruct ((a =? x) && (b' =? b)) eqn:EE; [|reflexivity]. exfalso. apply Hd. apply andb_prop in EE. destruct EE as [Ex Eb]. apply Nat.eqb_eq in Ex, Eb. subst. split; [reflexivity|exact Hb'].
Qed.
Example C120_applies : In (1, false) (tasks EveryStart Both ex_inds) /\ In (1, true) (tasks EveryStart Both ex_inds) /\ (1, false) <> (1, true) /\ task_stops both ex_inds (1, false) = Some (2, [3]) /\ task_stops both ex_inds (1, true) = Some (2, [0]).
Proof. split; [cbn; tauto|]. split; [cbn; tauto|]. split; [discriminate|]. split; reflexivity. Qed.

(** * C121: a grid given by the user *)
Definition C121_statement : Prop := forall n inter trans int_list count inds d, 0 < n -> all_slices_ok n inter -> trans_ok n inter trans -> NoDup int_list -> int_list <> [] ->
  grid 50 None int_list count = Some inds -> history n 0%num inter trans inds d ->
  forall m a b x, d_int d m a b = Some x -> exists A t, x = Whole (A, t) /\ holds_average n (inter m) a b A t.
(** [--int_list 0 2 1 3]: interval 1 is counted twice *)
Theorem C121_unordered_refuted : ~ C121_statement.
Proof.
  intros H. specialize (H 2 ex_inter ex_trans [0; 2; 1; 3] 4 [0; 2; 1; 3] _ ltac:(lia) ex_slices ex_transitions
    ltac:(repeat constructor; cbn; intuition discriminate) ltac:(discriminate) eq_refl
    (history_run 2 0%num ex_inter ex_trans [0; 2; 1; 3] _ FromStart Both (0, false) both false 6 (history_start _ _ _ _ _) (or_introl eq_refl)) Lin 0 3).
  destruct (d_int _ Lin 0 3) as [x|] eqn:E.
  - destruct (H x eq_refl) as (A & t & -> & Ht & _). apply (f_equal (fun o => match o with Some (Whole (_, t)) => qeqb t (qn 6) | _ => true end)) in E. rewrite Ht in E. vm_compute in E. discriminate E.
  - apply (f_equal (fun o => match o with Some _ => true | None => false end)) in E. vm_compute in E. discriminate E.
Qed.
(** What holds: in increasing order. *)
Theorem C121_increasing_partial : forall n inter trans int_list count inds d, 0 < n -> all_slices_ok n inter -> trans_ok n inter trans -> increasing_nat int_list -> int_list <> [] ->
  grid 50 None int_list count = Some inds -> history n 0%num inter trans inds d ->
  forall m a b x, d_int d m a b = Some x -> exists A t, x = Whole (A, t) /\ holds_average n (inter m) a b A t.
Proof.
  intros n inter trans il count inds d Hn HS HT HI HN E H. assert (inds = il) as -> by (destruct il; [congruence|]; now injection E). exact (C115_files_right n inter trans il d Hn HS HT HI H).
Qed.
Example C121_applies : increasing_nat ex_inds /\ grid 50 None ex_inds 4 = Some ex_inds.
Proof. split; [exact ex_increasing|reflexivity]. Qed.

Print Assumptions C115_files_right.
Print Assumptions C115_fresh_run.
Print Assumptions C116_covariance.
Print Assumptions C117_both_methods_refuted.
Print Assumptions C117_no_slices_refuted.
Print Assumptions C117_torn_refuted.
Print Assumptions C117_one_method_partial.
Print Assumptions C118_tasks.
Print Assumptions C119_few_intervals_refuted.
Print Assumptions C119_last_intervals_refuted.
Print Assumptions C119_regular_partial.
Print Assumptions C120_no_sharing.
Print Assumptions C121_unordered_refuted.
Print Assumptions C121_increasing_partial.
