(** Properties C98-C101: [static_clustering]. *)
From Verif Require Import Base PartitionModel PartitionSpec PartitionProofs LouvainModel LouvainSpec LouvainProofs
  EventsModel EventsSpec TransModel TransSpec MatProofs StaticModel StaticSpec StaticProofs.

(** ** The constructor *)
Lemma isclose_refl a : isclose a a = true.
Proof.
  unfold isclose. replace (a - a)%num with 0%num by ring. destruct (qleb_spec (qabs 0) (qf 1 100000000 + qf 1 100000 * qabs a)%num) as [|H]; [reflexivity|].
  exfalso. apply H. change (qabs 0) with 0%num. assert (Ha := qabs_nonneg a). revert Ha. generalize (qabs a). unfold qf. qlra.
Qed.
Lemma rows_ok_one n T : rows_to_one n T -> rows_ok n T = true.
Proof.
  intros H. unfold rows_ok. apply forallb_forall. intros i Hi. apply seq_In_iff in Hi.
  assert (E : sumN n (T i) = 1%num) by exact (H i Hi). rewrite E, isclose_refl. reflexivity.
Qed.
Lemma static_some n eig E csr A t d l dir p : (0 <= time_value t)%num -> exponential n E -> stochastic n (Tstat n A) ->
  stationary n eig dir A = Some p ->
  static_clustering n eig E csr A t d l dir = Some (mkStatic p (transition n E d l t A) (compute_S p p (transition n E d l t A))).
Proof.
  intros Ht HE HS HP. unfold static_clustering. rewrite HP.
  rewrite rows_ok_one by apply (transition_facts n E A p HE HS d l t Ht). now rewrite Bool.orb_true_r.
Qed.
Lemma undirected_some n eig A : (0 < total_strength n A)%num ->
  stationary n eig false A = Some (fun i => (strength n A i / total_strength n A)%num).
Proof.
  intros H. unfold stationary. change (sumN n (degs n A)) with (total_strength n A).
  destruct (qeqb_spec (total_strength n A) 0%num) as [E|_]; [|reflexivity]. exfalso. rewrite E in H. revert H. qlra.
Qed.

(** ** C98 *)
Theorem C98_undirected : forall n eig E is_csr A t discrete linearized,
  network n A -> undirected n A -> exponential n E -> (0 <= time_value t)%num ->
  exists c, static_clustering n eig E is_csr A t discrete linearized false = Some c /\
    density n (st_p c) /\ (forall i, i < n -> (total_strength n A * st_p c i = strength n A i)%num) /\
    rows_to_one n (st_T c) /\ (time_ok discrete linearized t -> stochastic n (st_T c)) /\
    invariant n (st_p c) (st_T c) /\ balanced n (st_p c) (st_T c) /\
    (forall i j, i < n -> j < n -> st_S c i j = st_S c j i) /\
    (forall i, i < n -> sumN n (fun j => st_S c i j) = 0%num).
Proof.
  intros n eig E csr A t d l [A0 HA] HU HE Ht. assert (Hpos := total_pos n A A0 HA). assert (HW := Tstat_walks n A A0).
  assert (HS := walks_stochastic n A A0 _ HW). set (p := fun i => (strength n A i / total_strength n A)%num).
  assert (HB : balanced n p (Tstat n A)) by now apply balanced_walk.
  assert (HI : invariant n p (Tstat n A)) by (apply balanced_invariant; [exact (proj2 HS)|exact HB]).
  assert (HD : density n p) by now apply density_strength.
  eexists. split; [apply static_some; [exact Ht|exact HE|exact HS|now apply undirected_some]|]. cbn [st_p st_T st_S]. fold p.
  destruct (transition_facts n E A p HE HS d l t Ht) as (H1 & H2 & H3 & H4). specialize (H3 HI). specialize (H4 HB).
  split; [exact HD|]. split; [intros i Hi; unfold p; field; now apply qneq_pos|]. split; [exact H1|]. split; [exact H2|]. split; [exact H3|]. split; [exact H4|]. split.
  - intros i j Hi Hj. unfold compute_S. rewrite (H4 i j Hi Hj). ring.
  - intros i Hi. unfold compute_S. rewrite sumN_sub, !sumN_scal_l. assert (E1 := H1 i Hi). destruct HD as [_ E2].
    change (sumN n (fun j => transition n E d l t A i j)) with (sumN n (transition n E d l t A i)) in E1.
    change (sumN n (fun k => transition n E d l t A i k)) with (sumN n (transition n E d l t A i)). change (sumN n (fun k => p k)) with (sumN n p). rewrite E1, E2. ring.
Qed.
Print Assumptions C98_undirected.

(** An exponential for the examples: exp(-x L) replaced by I - x/(1+x) L. *)
Definition resolvent : num -> mat -> mat := fun x L => mminus ident (mscal (x / (1 + x))%num L).
Lemma resolvent_ok n : exponential n resolvent.
Proof.
  intros x L Hx HS. unfold resolvent. set (y := (x / (1 + x))%num).
  assert (H1x : (0 < 1 + x)%num) by (revert Hx; qlra). assert (N1 : (1 + x)%num <> 0%num) by now apply qneq_pos.
  assert (Hy : (0 <= y)%num) by (apply qdiv_nonneg; assumption).
  assert (Ey : (1 - y)%num = (/ (1 + x))%num) by (unfold y; now field).
  assert (Hy1 : (y <= 1)%num). { assert (H : (0 < / (1 + x))%num) by now apply qinv_pos. rewrite <- Ey in H. revert H. generalize y. qlra. }
  assert (EQ : eqm n (mminus ident (mscal y L)) (mminus ident (mscal y (mminus ident (mminus ident L))))) by (intros i j _ _; unfold mminus, mscal; ring).
  split; [|split; [|split]].
  - apply (stochastic_ext n _ _ (eqm_sym _ _ _ EQ)). now apply linear_stochastic.
  - intros p HI. apply (invariant_ext n p p _ _ (fun _ _ => eq_refl) (eqm_sym _ _ _ EQ)). now apply linear_invariant.
  - intros p HB. apply (balanced_ext n p p _ _ (fun _ _ => eq_refl) (eqm_sym _ _ _ EQ)). now apply linear_balanced.
  - intros i j Hi Hj Hx' HL. rewrite (EQ i j Hi Hj), linear_entry.
    assert (0 < y)%num by (unfold y, Qcdiv; apply qmult_pos; [exact Hx'|now apply qinv_pos]).
    assert (0 < y * mminus ident L i j)%num by now apply qmult_pos.
    assert (0 <= (1 - y) * ident i j)%num by (apply qmult_nonneg; [revert Hy1; generalize y; qlra|unfold ident; destruct (i =? j); qcompute]).
    revert H0 H1. generalize (y * mminus ident L i j)%num ((1 - y) * ident i j)%num. qlra.
Qed.
(** a triangle with a pendant node, and a fifth node without edges *)
Definition house : mat := LouvainSpec.of_rows [[0;1;1;0;0];[1;0;1;0;0];[1;1;0;1;0];[0;0;1;0;0];[0;0;0;0;0]]%num.
Definition no_eig : mat -> eigenpair := fun _ => mkEigen 0 0 (fun _ => 0%num) (fun _ => 0%num).
Lemma house_ok : network 5 house /\ undirected 5 house.
Proof.
  split; [split|].
  - intros i j Hi Hj. destruct i as [|[|[|[|[|i]]]]], j as [|[|[|[|[|j]]]]]; try lia; vm_compute; discriminate.
  - exists 0, 1. split; [lia|]. split; [lia|]. vm_compute. discriminate.
  - intros i j Hi Hj. destruct i as [|[|[|[|[|i]]]]], j as [|[|[|[|[|j]]]]]; try lia; reflexivity.
Qed.
Example C98_applies : match static_clustering 5 no_eig resolvent false house (OtherNumber 1) false false false with
  | Some c => st_p c 2 = qf 3 8 /\ st_p c 4 = 0%num /\ st_T c 3 2 = (/ 2)%num /\ st_T c 4 4 = 1%num | None => False end.
Proof. vm_compute. repeat split; now apply Qc_is_canon. Qed.

(** ** C99: at time 1 the linearised stability, and that of one step, is the modularity *)
Theorem C99_linearised : forall n eig E is_csr A t discrete c q,
  network n A -> undirected n A -> exponential n E -> (0 <= time_value t)%num -> (discrete = true -> forall k, t <> PyInt k) ->
  static_clustering n eig E is_csr A t discrete true false = Some c -> valid q -> num_nodes q = n ->
  let share := fun cl => (cluster_strength n A cl / total_strength n A)%num in
  stability (st_S c) q =
    ((1 - time_value t) * (1 - sumL (fun cl => share cl * share cl) (cluster_list q)) + time_value t * modularity n A q)%num.
Proof.
  intros n eig E csr A t d c q [A0 HA] HU HE Ht Hd HC Hq Hn share. assert (Hpos := total_pos n A A0 HA).
  assert (HS := walks_stochastic n A A0 _ (Tstat_walks n A A0)).
  rewrite (static_some n eig E csr A t d true false _ Ht HE HS (undirected_some n eig A Hpos)) in HC. injection HC as <-. cbn [st_S].
  apply linear_stability; try assumption.
  unfold transition. destruct d; [destruct t as [k|x]; [now destruct (Hd eq_refl k)|]|]; apply eqm_refl.
Qed.
Theorem C99_one_step : forall n eig E is_csr A linearized c q,
  network n A -> undirected n A -> exponential n E ->
  static_clustering n eig E is_csr A (PyInt 1) true linearized false = Some c -> valid q -> num_nodes q = n ->
  stability (st_S c) q = modularity n A q.
Proof.
  intros n eig E csr A l c q [A0 HA] HU HE HC Hq Hn. assert (Hpos := total_pos n A A0 HA).
  assert (HS := walks_stochastic n A A0 _ (Tstat_walks n A A0)).
  rewrite (static_some n eig E csr A (PyInt 1) true l false _ (qn_nonneg 1) HE HS (undirected_some n eig A Hpos)) in HC. injection HC as <-. cbn [st_S].
  assert (HT : eqm n (transition n E true l (PyInt 1) A) (mminus ident (mscal 1%num (mminus ident (Tstat n A))))).
  { unfold transition. eapply eqm_trans; [apply power_1|]. intros i j _ _. unfold mminus, mscal. ring. }
  assert (EL := linear_stability n A A0 HU Hpos 1%num _ q HT Hq Hn). cbv zeta in EL.
  etransitivity; [exact EL|]. generalize (modularity n A q) (sumL (fun c => cluster_strength n A c / total_strength n A * (cluster_strength n A c / total_strength n A))%num (cluster_list q)). intros x y. ring.
Qed.
Print Assumptions C99_linearised.
Print Assumptions C99_one_step.
Example C99_applies : match static_clustering 5 no_eig resolvent false house (OtherNumber 1) false true false with
  | Some c => stability (st_S c) (part_of_list 5 [[0;1];[2;3];[4]]) = modularity 5 house (part_of_list 5 [[0;1];[2;3];[4]]) | None => False end
  /\ modularity 5 house (part_of_list 5 [[0;1;2];[3];[4]]) = (- qf 1 32)%num /\ valid (part_of_list 5 [[0;1];[2;3];[4]]).
Proof.
  split; [vm_compute; reflexivity|]. split; [vm_compute; now apply Qc_is_canon|]. apply of_list_valid, partitionsb_sound. reflexivity.
Qed.

(** ** C100: discrete times
    Full statement: with discrete_time_rw the transition matrix is a power of that of the walk, for
    every integer time.  It is false for integers that are not a python int. *)
Definition C100_statement (E : num -> mat -> mat) : Prop :=
  forall n eig is_csr A t k linearized directed c W,
    network n A -> walks n A W -> time_value t = qn k ->
    static_clustering n eig E is_csr A t true linearized directed = Some c -> eqm n (st_T c) (power n W k).
Definition pair : mat := LouvainSpec.of_rows [[0;1];[1;0]]%num.
Lemma pair_ok : network 2 pair /\ undirected 2 pair /\ walks 2 pair pair.
Proof.
  split; [split|split].
  - intros i j Hi Hj. destruct i as [|[|i]], j as [|[|j]]; try lia; vm_compute; discriminate.
  - exists 0, 1. split; [lia|]. split; [lia|]. vm_compute. discriminate.
  - intros i j Hi Hj. destruct i as [|[|i]], j as [|[|j]]; try lia; reflexivity.
  - intros i j Hi Hj. split.
    + intros _. destruct i as [|[|i]], j as [|[|j]]; try lia; vm_compute; now apply Qc_is_canon.
    + destruct i as [|[|i]]; try lia; vm_compute; discriminate.
Qed.
Theorem C100_numpy_integer_refuted : forall E, exponential 2 E -> ~ C100_statement E.
Proof.
  intros E HE H. destruct pair_ok as (HN & HU & HW).
  assert (HS := walks_stochastic 2 pair (proj1 HN) _ (Tstat_walks 2 pair (proj1 HN))).
  assert (H2 : (0 <= time_value (OtherNumber (qn 2)))%num) by apply qn_nonneg.
  assert (EC := static_some 2 no_eig E false pair (OtherNumber (qn 2)) true false false _ H2 HE HS (undirected_some 2 no_eig pair (total_pos 2 pair (proj1 HN) (proj2 HN)))).
  specialize (H 2 no_eig false pair (OtherNumber (qn 2)) 2 false false _ pair HN HW eq_refl EC 0 1 ltac:(lia) ltac:(lia)). cbn [st_T transition time_value] in H.
  destruct (HE (qn 2) (mminus ident (Tstat 2 pair)) (qn_nonneg 2)) as (_ & _ & _ & HP).
  - apply (stochastic_ext 2 (Tstat 2 pair)); [apply eqm_sym, minus_minus|exact HS].
  - specialize (HP 0 1 ltac:(lia) ltac:(lia)). rewrite H in HP.
    assert (HX : Qclt 0%num (power 2 pair 2 0 1)) by (apply HP; vm_compute; reflexivity). vm_compute in HX. discriminate.
Qed.
Print Assumptions C100_numpy_integer_refuted.
(** What holds: powers for a python int. *)
Lemma matrix_power_power n M k : eqm n (matrix_power n M k) (power n M k).
Proof.
  induction k as [|k IH]; cbn [matrix_power power]; [apply eqm_refl|].
  eapply eqm_trans; [apply power_comm|]. apply mmul_ext; [exact IH|apply eqm_refl].
Qed.
Lemma power_ext n A B k : eqm n A B -> eqm n (power n A k) (power n B k).
Proof. intros H. induction k as [|k IH]; cbn [power]; [apply eqm_refl|now apply mmul_ext]. Qed.
Theorem C100_python_int_partial : forall n eig E is_csr A k linearized directed c W,
  network n A -> walks n A W ->
  static_clustering n eig E is_csr A (PyInt k) true linearized directed = Some c -> eqm n (st_T c) (power n W k).
Proof.
  intros n eig E csr A k l dir c W [A0 _] HW HC. unfold static_clustering in HC. destruct (stationary n eig dir A) as [p|]; [|discriminate].
  destruct (csr || _)%bool; [|discriminate]. injection HC as <-. cbn [st_T transition].
  eapply eqm_trans; [apply matrix_power_power|]. apply power_ext. apply (walks_unique n A); [|exact HW]. now apply Tstat_walks.
Qed.
Print Assumptions C100_python_int_partial.
Example C100_applies : match static_clustering 5 no_eig resolvent false house (PyInt 2) true false false with
  | Some c => st_T c 0 0 = qf 5 12 /\ st_T c 0 3 = qf 1 6 | None => False end.
Proof. vm_compute. split; now apply Qc_is_canon. Qed.

(** ** C101: directed networks
    Full statement: for a strongly connected network the density found is the stationary one.  It
    is false: only the modulus of the eigenvalue is checked, and the walk on a periodic network has
    other eigenvalues of modulus 1. *)
Definition C101_statement : Prop :=
  forall n eig E is_csr A t discrete linearized,
    network n A -> strongly_connected n A -> finds_largest n A eig -> exponential n E -> (0 <= time_value t)%num ->
    exists c, static_clustering n eig E is_csr A t discrete linearized true = Some c /\ density n (st_p c) /\ invariant n (st_p c) (st_T c).
Lemma pair_connected : strongly_connected 2 pair.
Proof.
  assert (H : forall i j, i < 2 -> j < 2 -> i <> j -> pair i j <> 0%num) by (intros i j Hi Hj Hn; destruct i as [|[|i]], j as [|[|j]]; try lia; vm_compute; discriminate).
  intros i j Hi Hj. destruct (Nat.eq_dec i j) as [->|Hn]; [now constructor|]. apply (path_cons _ _ i j j); auto. now constructor.
Qed.
Definition alternating : eigenpair := mkEigen (- (1))%num 0 (fun i => if i =? 0 then 1%num else (- (1))%num) (fun _ => 0%num).
Lemma pair_walk W : walks 2 pair W -> eqm 2 W pair.
Proof. intros H. apply (walks_unique 2 pair); [exact H|apply pair_ok]. Qed.
Lemma alternating_largest : finds_largest 2 pair (fun _ => alternating).
Proof.
  intros W HW. assert (E := pair_walk W HW). split; [split|split].
  - exists 0. split; [lia|]. left. vm_compute. discriminate.
  - intros i Hi. assert (EE : forall v : nat -> num, sumN 2 (fun j => transpose W i j * v j)%num = sumN 2 (fun j => pair j i * v j)%num).
    { intros v. apply sumN_ext. intros j Hj. unfold transpose. now rewrite (E j i Hj Hi). }
    rewrite !EE. destruct i as [|[|i]]; try lia; vm_compute; split; now apply Qc_is_canon.
  - vm_compute. now apply Qc_is_canon.
  - reflexivity.
Qed.
Theorem C101_periodic_refuted : ~ C101_statement.
Proof.
  intros H. destruct (H 2 (fun _ => alternating) resolvent false pair (PyInt 1) true false (proj1 pair_ok) pair_connected alternating_largest (resolvent_ok 2) (qn_nonneg 1)) as (c & HC & _).
  vm_compute in HC. discriminate.
Qed.
Print Assumptions C101_periodic_refuted.
(** What holds: if the eigenvalue found is 1, the density is positive, stationary for all times, and
    the only stationary density of the walk. *)
Theorem C101_eigenvalue_one_partial : forall n eig E is_csr A t discrete linearized,
  network n A -> strongly_connected n A -> finds_largest n A eig -> finds_one n A eig -> exponential n E -> (0 <= time_value t)%num ->
  exists c, static_clustering n eig E is_csr A t discrete linearized true = Some c /\ density n (st_p c) /\ (forall i, i < n -> (0 < st_p c i)%num) /\ invariant n (st_p c) (st_T c) /\
    (forall W q, walks n A W -> density n q -> invariant n q W -> forall i, i < n -> q i = st_p c i).
Proof.
  intros n eig E csr A t d l [A0 HA] HC HL H1 HE Ht. assert (HW := Tstat_walks n A A0). assert (HS := walks_stochastic n A A0 _ HW).
  assert (Hpos := total_pos n A A0 HA). assert (Hn : 0 < n) by (destruct HA as (i & _ & Hi & _); lia).
  set (W := Tstat n A) in *. set (e := eig (transpose W)).
  destruct (HL W HW) as ([(i0 & Hi0 & Hv) Heq] & Hm & Hr). fold e in Hv, Heq, Hm, Hr. assert (Hw := H1 W HW). fold e in Hw.
  assert (Him : w_im e = 0%num).
  { rewrite Hw in Hm. assert (E0 : (w_im e * w_im e = 0)%num). { replace (w_im e * w_im e)%num with (1 * 1 + w_im e * w_im e - 1)%num by ring. rewrite Hm. ring. }
    destruct (Qcmult_integral _ _ E0); assumption. }
  specialize (Hr Him).
  assert (HI : invariant n (v_re e) W).
  { intros j Hj. destruct (Heq j Hj) as [E0 _]. rewrite Hw, Him in E0. unfold transpose in E0.
    rewrite (sumN_ext _ _ (fun i => (W i j * v_re e i)%num)) by (intros; ring). rewrite E0. ring. }
  assert (Hstep : forall i j, i < n -> j < n -> A i j <> 0%num -> (0 < W i j)%num).
  { intros i j Hi Hj Ha. assert (Hs : strength n A i <> 0%num) by (intros Es; apply Ha; now apply (zero_row n A A0)).
    destruct (qle_lt_or_eq _ _ (proj1 HS i j Hi Hj)) as [L|L]; [exact L|]. exfalso. apply Ha. rewrite <- (proj1 (HW i j Hi Hj) Hs), <- L. ring. }
  assert (Hreach : forall i j, i < n -> j < n -> reach n (fun i j => A i j <> 0%num) i j).
  { intros i j Hi Hj. assert (HP := HC i j Hi Hj). clear - HP. induction HP; [now constructor|]. now apply (reach_cons _ _ i j k). }
  assert (Hnz : exists i, i < n /\ v_re e i <> 0%num) by (exists i0; split; [exact Hi0|]; destruct Hv as [Hv|Hv]; [exact Hv|]; now rewrite Hr in Hv).
  destruct (perron n W (fun i j => A i j <> 0%num) HS Hstep Hreach (v_re e) HI Hnz) as (Hs & Hp & HD & HIp).
  set (p := fun i => (v_re e i / sumN n (v_re e))%num) in *.
  assert (EP : stationary n eig true A = Some p).
  { unfold stationary. change (sumN n (degs n A)) with (total_strength n A). destruct (qeqb_spec (total_strength n A) 0%num) as [Z|_]; [rewrite Z in Hpos; revert Hpos; qlra|].
    fold W. fold e. rewrite Hm. replace (modulus_one 1%num) with true by (vm_compute; reflexivity). cbn [negb]. destruct (qeqb_spec (sumN n (v_re e)) 0%num) as [Z|_]; [contradiction|reflexivity]. }
  eexists. split; [apply static_some; [exact Ht|exact HE|exact HS|exact EP]|]. cbn [st_p st_T].
  split; [exact HD|]. split; [exact Hp|]. split; [now apply (transition_facts n E A p HE HS d l t Ht)|].
  intros W' q HW' HDq HIq i Hi.
  apply (perron_unique n W (fun i j => A i j <> 0%num) HS Hstep Hreach q p Hn HDq HD); [|exact HIp|exact Hi].
  apply (invariant_ext n q q W' W); [reflexivity|now apply (walks_unique n A)|exact HIq].
Qed.
Print Assumptions C101_eigenvalue_one_partial.
(** In any case, whichever eigenpair is found: if there is a result (with exact arithmetic the sum
    of a vector of another eigenvalue is zero, which is an error) the density sums to one and is
    stationary for all times, and it is the stationary density if the network is strongly connected. *)
Theorem C101_never_wrong_partial : forall n eig E is_csr A t discrete linearized c,
  network n A -> (forall W, walks n A W -> is_eigenpair n (transpose W) (eig (transpose W))) -> exponential n E -> (0 <= time_value t)%num ->
  static_clustering n eig E is_csr A t discrete linearized true = Some c ->
  sumN n (st_p c) = 1%num /\ invariant n (st_p c) (st_T c) /\
  (strongly_connected n A -> density n (st_p c) /\ forall W q, walks n A W -> density n q -> invariant n q W -> forall i, i < n -> q i = st_p c i).
Proof.
  intros n eig E csr A t d l c [A0 HA] HF HE Ht HC. assert (HW := Tstat_walks n A A0). assert (HS := walks_stochastic n A A0 _ HW).
  assert (Hn : 0 < n) by (destruct HA as (i & _ & Hi & _); lia).
  set (W := Tstat n A) in *. set (e := eig (transpose W)). destruct (HF W HW) as [_ Heq]. fold e in Heq.
  unfold static_clustering in HC. destruct (stationary n eig true A) as [p|] eqn:EP; [|discriminate].
  destruct (csr || rows_ok n _) eqn:Erow; [|discriminate]. injection HC as <-. cbn [st_p st_T].
  unfold stationary in EP. destruct (qeqb (sumN n (degs n A)) 0%num); [discriminate|]. fold W e in EP.
  destruct (negb _); [discriminate|]. destruct (qeqb_spec (sumN n (v_re e)) 0%num) as [|Hs]; [discriminate|]. injection EP as <-.
  assert (Hsum : forall v : nat -> num, sumN n (fun i => sumN n (fun j => transpose W i j * v j)%num) = sumN n v).
  { intros v. unfold sumN. rewrite sumL_swap. apply sumL_ext. intros j Hj. apply seq_In_iff in Hj. unfold transpose.
    change (sumN n (fun i => W j i * v j)%num = v j). rewrite (sumN_ext _ _ (fun i => (v j * W j i)%num)) by (intros; ring).
    assert (E1 : sumN n (fun i => (v j * W j i)%num) = (v j * sumN n (W j))%num) by apply sumN_scal_l. rewrite E1.
    assert (E2 : sumN n (W j) = 1%num) by now apply HS. rewrite E2. ring. }
  set (a := sumN n (v_re e)) in *. set (b := sumN n (v_im e)).
  assert (Ea : (a = w_re e * a - w_im e * b)%num).
  { unfold a at 1. rewrite <- (Hsum (v_re e)). rewrite (sumN_ext _ _ (fun i => (w_re e * v_re e i - w_im e * v_im e i)%num)) by (intros i Hi; exact (proj1 (Heq i Hi))).
    rewrite sumN_sub. f_equal; apply sumN_scal_l. }
  assert (Eb : (b = w_re e * b + w_im e * a)%num).
  { unfold b at 1. rewrite <- (Hsum (v_im e)). rewrite (sumN_ext _ _ (fun i => (w_re e * v_im e i + w_im e * v_re e i)%num)) by (intros i Hi; exact (proj2 (Heq i Hi))).
    rewrite sumN_add. f_equal; apply sumN_scal_l. }
  assert (Hw : ((1 - w_re e) * (1 - w_re e) + w_im e * w_im e)%num = 0%num).
  { assert (E0 : (((1 - w_re e) * (1 - w_re e) + w_im e * w_im e) * a)%num = 0%num).
    { transitivity ((1 - w_re e) * (a - (w_re e * a - w_im e * b)) - w_im e * (b - (w_re e * b + w_im e * a)))%num; [ring|].
      rewrite <- Ea, <- Eb. ring. }
    destruct (Qcmult_integral _ _ E0); [assumption|contradiction]. }
  assert (Q1 := qsq_nonneg (1 - w_re e)%num). assert (Q2 := qsq_nonneg (w_im e)).
  assert (Z1 : ((1 - w_re e) * (1 - w_re e))%num = 0%num) by (apply Qcle_antisym; revert Q1 Q2 Hw; generalize ((1 - w_re e) * (1 - w_re e))%num (w_im e * w_im e)%num; qlra).
  assert (Z2 : (w_im e * w_im e)%num = 0%num) by (apply Qcle_antisym; revert Q1 Q2 Hw; generalize ((1 - w_re e) * (1 - w_re e))%num (w_im e * w_im e)%num; qlra).
  assert (Hre : w_re e = 1%num).
  { assert (Z : (1 - w_re e)%num = 0%num) by (destruct (Qcmult_integral _ _ Z1); assumption). replace (w_re e) with (1 - (1 - w_re e))%num by ring. rewrite Z. ring. }
  assert (Him : w_im e = 0%num) by (destruct (Qcmult_integral _ _ Z2); assumption).
  assert (HI : invariant n (v_re e) W).
  { intros j Hj. destruct (Heq j Hj) as [E0 _]. rewrite Hre, Him in E0. unfold transpose in E0.
    rewrite (sumN_ext _ _ (fun i => (W i j * v_re e i)%num)) by (intros; ring). rewrite E0. ring. }
  set (p := fun i => (v_re e i / a)%num).
  assert (HIp : invariant n p W).
  { intros j Hj. unfold p. rewrite (sumN_ext _ _ (fun i => (/ a * (v_re e i * W i j))%num)) by (intros; unfold Qcdiv; ring). rewrite sumN_scal_l, (HI j Hj). unfold Qcdiv. ring. }
  assert (Hp1 : sumN n p = 1%num).
  { unfold p. rewrite (sumN_ext _ _ (fun i => (/ a * v_re e i)%num)) by (intros; unfold Qcdiv; ring).
    assert (E1 : sumN n (fun i => (/ a * v_re e i)%num) = (/ a * a)%num) by apply sumN_scal_l. rewrite E1. field. exact Hs. }
  split; [exact Hp1|]. split; [now apply (transition_facts n E A p HE HS d l t Ht)|]. intros HC.
  assert (Hstep : forall i j, i < n -> j < n -> A i j <> 0%num -> (0 < W i j)%num).
  { intros i j Hi Hj Ha. assert (Hs' : strength n A i <> 0%num) by (intros Es; apply Ha; now apply (zero_row n A A0)).
    destruct (qle_lt_or_eq _ _ (proj1 HS i j Hi Hj)) as [L|L]; [exact L|]. exfalso. apply Ha. rewrite <- (proj1 (HW i j Hi Hj) Hs'), <- L. ring. }
  assert (Hreach : forall i j, i < n -> j < n -> reach n (fun i j => A i j <> 0%num) i j).
  { intros i j Hi Hj. assert (HP := HC i j Hi Hj). clear - HP. induction HP; [now constructor|]. now apply (reach_cons _ _ i j k). }
  assert (Hnz : exists i, i < n /\ v_re e i <> 0%num).
  { destruct (existsb (fun i => negb (qeqb (v_re e i) 0%num)) (seq 0 n)) eqn:Ex.
    - apply existsb_exists in Ex. destruct Ex as (i & Hi & Hv). exists i. split; [now apply seq_In_iff|]. destruct (qeqb_spec (v_re e i) 0%num); [discriminate|assumption].
    - exfalso. apply Hs. unfold a. rewrite (sumN_ext _ _ (fun _ => 0%num)); [unfold sumN; rewrite sumL_const; ring|]. intros i Hi.
      destruct (qeqb_spec (v_re e i) 0%num) as [|Hv]; [assumption|]. exfalso.
      assert (X : existsb (fun i => negb (qeqb (v_re e i) 0%num)) (seq 0 n) = true).
      { apply existsb_exists. exists i. split; [now apply seq_In_iff|]. destruct (qeqb_spec (v_re e i) 0%num); [contradiction|reflexivity]. }
      rewrite X in Ex. discriminate Ex. }
  destruct (perron n W (fun i j => A i j <> 0%num) HS Hstep Hreach (v_re e) HI Hnz) as (_ & _ & HD & _). fold a in HD. fold p in HD.
  split; [exact HD|]. intros W' q HW' HDq HIq i Hi.
  apply (perron_unique n W (fun i j => A i j <> 0%num) HS Hstep Hreach q p Hn HDq HD); [|exact HIp|exact Hi].
  apply (invariant_ext n q q W' W); [reflexivity|now apply (walks_unique n A)|exact HIq].
Qed.
Print Assumptions C101_never_wrong_partial.
Definition constant_pair : eigenpair := mkEigen 1 0 (fun _ => 2%num) (fun _ => 0%num).
Example C101_applies : finds_largest 2 pair (fun _ => constant_pair) /\ finds_one 2 pair (fun _ => constant_pair) /\ strongly_connected 2 pair /\
  match static_clustering 2 (fun _ => constant_pair) resolvent false pair (PyInt 1) true false true with Some c => st_p c 0 = (/ 2)%num | None => False end.
Proof.
  split; [|split; [intros W _; reflexivity|split; [exact pair_connected|vm_compute; now apply Qc_is_canon]]].
  intros W HW. assert (E := pair_walk W HW). split; [split|split].
  - exists 0. split; [lia|]. left. vm_compute. discriminate.
  - intros i Hi. assert (EE : forall v : nat -> num, sumN 2 (fun j => transpose W i j * v j)%num = sumN 2 (fun j => pair j i * v j)%num).
    { intros v. apply sumN_ext. intros j Hj. unfold transpose. now rewrite (E j i Hj Hi). }
    rewrite !EE. destruct i as [|[|i]]; try lia; vm_compute; split; now apply Qc_is_canon.
  - vm_compute. now apply Qc_is_canon.
  - reflexivity.
Qed.
