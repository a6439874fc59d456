(** Properties C213 and C215, continued: networks whose overlapping events are merged. *)
From Coq Require Import Reals Qreals Lra Lia Permutation Relations.
From Verif Require Import Base PartitionModel PartitionSpec PartitionProofs GapModel GapProofs LouvainModel LouvainSpec LouvainProofs SparseModel EventsModel EventsSpec LaplacianProofs MergeProofs EventsProps TransModel TransSpec MatProofs
  FlowModel FlowSpec FlowProofs FlowStabProofs FlowStabProps JoinEndProps LocalProps MeetProofs ErrorProps ExpModel ExpSpec ExpSeries ExpProps PeriodSpec PeriodProps PathSpec PathProps ContactStabProps RenameSpec CrossTimeProps BestSplitProps SlowProps SymmetryProps.
From Verif Require UnitProps MultiProofs FlowProps RenameProofs RenameProps LinErrorProps.

(** * C213: what is not connected by the events as they were given is not joined *)
Theorem C213_merged : forall fuel srcs tgts starts ends N0 N g a b ka kb Ls lamda Ms kd p1 gr r rtol F q A,
  make_net 0 true false srcs tgts starts ends = Some N0 -> make_net fuel true true srcs tgts starts ends = Some N ->
  rows N <> [] -> ids_ok N0 = true -> no_self_contact (rows N0) -> lasting (rows N0) -> is_time_grid (rows N) g ->
  compute_laplacians N g a b = Some (ka, kb, Ls) -> ka <= kb -> (0 < lamda)%R -> computed (num_nodes_of N) lamda (between (times (rows N)) ka kb) Ls Ms ->
  exact kd rtol -> distribution_ok (num_nodes_of N) p1 -> (forall i, i < num_nodes_of N -> the_distribution (num_nodes_of N) p1 i <> 0%num) ->
  flow_integral (num_nodes_of N) kd None (Some Ms) p1 (Some (between (times (rows N)) ka kb)) gr r rtol = Some F -> In A (f_I F) -> best (num_nodes_of N) A q ->
  forall x y, together q x y -> window_acquainted (rows N0) (nth ka (times (rows N)) 0%num) (nth kb (times (rows N)) 0%num) x y.
Proof.
  intros fuel srcs tgts starts ends N0 N g a b ka kb Ls lamda Ms kd p1 gr r rtol F q A HN0 HMg Hne1 Hids Hself HL HG E Hk Hl HM He Hp Hpos HI HA HB x y Hxy.
  assert (HOrd : ordered (rows N0)) by (intros e He'; specialize (HL e He'); qlra).
  destruct (proj2 (C37_sound_partial srcs tgts starts ends N0 HN0 Hids HOrd) fuel N HMg) as (EN & Hids1 & HV1 & HC1 & HT1 & HC2).
  assert (Hself1 : no_self_contact (rows N)) by (intros e He'; destruct (HT1 e He') as (f & Hf & -> & -> & _); now apply Hself).
  assert (HR : right_laplacians N g) by (intros a0 b0; exact (C34_merged fuel srcs tgts starts ends N0 N g a0 b0 HN0 Hids Hself HL HMg Hne1 HG)).
  pose proof (network_best N g a b ka kb Ls HR Hself1 Hids1 E Hk lamda Ms kd p1 gr r rtol F q A Hl HM He Hp Hpos HI HA HB x y Hxy) as HW.
  unfold window_acquainted in *. clear - HW HC1. induction HW as [i j (u & H1 & H2 & H3)|i|i j _ IH|i j k _ IH1 _ IH2].
  - apply rst_step. exists u. split; [exact H1|]. split; [exact H2|exact (HC1 i j u H3)].
  - apply rst_refl.
  - apply rst_sym. exact IH.
  - apply rst_trans with j; assumption.
Qed.
Print Assumptions C213_merged.

(** * C215: exchanges that keep the contacts as they were given *)
Theorem C215_merged : forall fuel srcs tgts starts ends N0 N g a b ka kb Ls lamda Ms ds s t kd p1 gr r rtol F p q A,
  make_net 0 true false srcs tgts starts ends = Some N0 -> make_net fuel true true srcs tgts starts ends = Some N ->
  rows N <> [] -> ids_ok N0 = true -> no_self_contact (rows N0) -> lasting (rows N0) -> simple_overlaps (rows N0) -> is_time_grid (rows N) g ->
  compute_laplacians N g a b = Some (ka, kb, Ls) -> ka <= kb -> nearly (num_nodes_of N) lamda (between (times (rows N)) ka kb) Ls Ms ds ->
  keeps_contacts (num_nodes_of N) (rows N0) (nth ka (times (rows N)) 0%num) (nth kb (times (rows N)) 0%num) s t ->
  exact kd rtol -> distribution_ok (num_nodes_of N) p1 -> (forall i, i < num_nodes_of N -> the_distribution (num_nodes_of N) p1 (t i) = the_distribution (num_nodes_of N) p1 i) ->
  flow_integral (num_nodes_of N) kd None (Some Ms) p1 (Some (between (times (rows N)) ka kb)) gr r rtol = Some F ->
  In A (f_I F) -> valid p -> num_nodes p = num_nodes_of N -> valid q -> num_nodes q = num_nodes_of N -> exchanged (num_nodes_of N) s p q ->
  (Rabs (q2r (compute_stability A p) - q2r (compute_stability A q)) <= 2 * total ds)%R.
Proof.
  intros fuel srcs tgts starts ends N0 N g a b ka kb Ls lamda Ms ds s t kd p1 gr r rtol F p q A HN0 HMg Hne1 Hids Hself HL HS HG E Hk HM [HRn HK].
  assert (HOrd : ordered (rows N0)) by (intros e He'; specialize (HL e He'); qlra).
  destruct (proj2 (C37_sound_partial srcs tgts starts ends N0 HN0 Hids HOrd) fuel N HMg) as (EN & Hids1 & HV1 & HC1 & HT1 & HC2). specialize (HC2 HL HS).
  assert (Hself1 : no_self_contact (rows N)) by (intros e He'; destruct (HT1 e He') as (f & Hf & -> & -> & _); now apply Hself).
  assert (HR : right_laplacians N g) by (intros a0 b0; exact (C34_merged fuel srcs tgts starts ends N0 N g a0 b0 HN0 Hids Hself HL HMg Hne1 HG)).
  assert (HK' : keeps_contacts (num_nodes_of N) (rows N) (nth ka (times (rows N)) 0%num) (nth kb (times (rows N)) 0%num) s t).
  { split; [exact HRn|]. intros i j u Hi Hj H1 H2. specialize (HK i j u Hi Hj H1 H2). split; intros H; apply HC2, HK, HC1, H. }
  exact (network_sym N g a b ka kb Ls HR Hself1 E Hk lamda Ms ds s t kd p1 gr r rtol F p q A HM HK').
Qed.
Print Assumptions C215_merged.

(** ** A concrete instance *)
(* three nodes that meet one after the other as in C213 and C215; the meeting of 0 and 1 is given as
   two overlapping events, which are merged *)
Definition pieces : net := mkNet [(0, mkEv 0 1 (qn 0) (qf 3 4) (qf 3 4 - qn 0)%num); (1, mkEv 1 0 (qf 1 2) (qn 1) (qn 1 - qf 1 2)%num); (2, ev 1 2 2 3)] [0; 1; 2].
Definition joined : net := mkNet [(0, mkEv 0 1 (qn 0) (qn 1) (qf 3 4 - qn 0)%num); (1, ev 1 2 2 3)] [0; 1; 2].
Definition laps_joined : list mat := match compute_laplacians joined (sorted_grid (rows joined)) None (Some (qn 2)) with Some (_, _, l) => l | None => [] end.
Lemma laps_joined_eq : laps_joined = [nth 0 laps_joined ident; nth 1 laps_joined ident].
Proof. assert (E : length laps_joined = 2) by (vm_compute; reflexivity). destruct laps_joined as [|x [|y [|]]]; cbn in E; try discriminate E. reflexivity. Qed.
Lemma joined_step k x F : k < 2 -> inter_matrix 3 x (nth k laps213 ident) F -> inter_matrix 3 x (nth k laps_joined ident) F.
Proof.
  intros Hk HF. assert (HE : same_entries (nth k laps_joined ident) (nth k laps213 ident) = true) by (destruct k as [|[|k]]; [vm_compute; reflexivity|vm_compute; reflexivity|lia]). pose proof (same_entries_eq _ _ HE) as EQ.
  apply inter_expm in HF. apply inter_expm. revert HF. apply expm_ext; [|intros i j _ _; reflexivity]. intros i j Hi Hj. unfold scaled, toR. now rewrite (EQ i j Hi Hj).
Qed.
Lemma joined_times : between (times (rows joined)) 0 2 = between (times (rows later)) 0 2.
Proof. vm_compute. reflexivity. Qed.
Example C213_merged_applies : make_net 0 true false [0; 1; 1] [1; 0; 2] [qn 0; qf 1 2; qn 2] [qf 3 4; qn 1; qn 3] = Some pieces /\ make_net 9 true true [0; 1; 1] [1; 0; 2] [qn 0; qf 1 2; qn 2] [qf 3 4; qn 1; qn 3] = Some joined /\
  ids_ok pieces = true /\ no_self_contact (rows pieces) /\ lasting (rows pieces) /\ simple_overlaps (rows pieces) /\ ~ no_overlap (rows pieces) /\
  compute_laplacians joined (sorted_grid (rows joined)) None (Some (qn 2)) = Some (0, 2, laps_joined) /\ computed 3 1%R (between (times (rows joined)) 0 2) laps_joined mats213.
Proof.
  assert (EV : forall e, In e (map snd (rows pieces)) -> e = mkEv 0 1 (qn 0) (qf 3 4) (qf 3 4 - qn 0)%num \/ e = mkEv 1 0 (qf 1 2) (qn 1) (qn 1 - qf 1 2)%num \/ e = ev 1 2 2 3) by (intros e He; cbn in He; intuition).
  split; [reflexivity|]. split; [vm_compute; reflexivity|]. split; [reflexivity|]. split; [intros e He; destruct (EV e He) as [->|[->| ->]]; cbn; lia|]. split; [intros e He; destruct (EV e He) as [->|[->| ->]]; reflexivity|].
  split.
  { split; [|split].
    - intros a b e f Ha Hb Hab HS HO. cbn in Ha, Hb. destruct Ha as [Ha|[Ha|[Ha|[]]]], Hb as [Hb|[Hb|[Hb|[]]]]; injection Ha as <- <-; injection Hb as <- <-; try (now elim Hab); unfold same_nodes, joins in HS; cbn in HS; try (exfalso; lia); intros K; discriminate K.
    - intros e f h He Hf Hh HS1 HS2 HO1 HO2. destruct (EV e He) as [->|[->| ->]], (EV f Hf) as [->|[->| ->]], (EV h Hh) as [->|[->| ->]]; try assumption; unfold same_nodes, joins in HS1, HS2; cbn in HS1, HS2; try (exfalso; lia); split; reflexivity.
    - intros e f He Hf HS HO HLt Hlast. destruct (EV e He) as [->|[->| ->]], (EV f Hf) as [->|[->| ->]]; unfold same_nodes, joins in HS; cbn in HS; try (exfalso; lia); try (vm_compute; discriminate); try (exfalso; vm_compute in HLt; discriminate HLt). }
  split.
  { intros HV. destruct (HV 0 1 _ _ 0 1 (or_introl eq_refl) (or_intror (or_introl eq_refl))) as [K|K]; [lia|left; split; reflexivity|right; split; reflexivity| |]; revert K; apply Qclt_not_le; reflexivity. }
  split.
  { unfold laps_joined. destruct (compute_laplacians joined (sorted_grid (rows joined)) None (Some (qn 2))) as [[[ka kb] l]|] eqn:E.
    - assert (K : match compute_laplacians joined (sorted_grid (rows joined)) None (Some (qn 2)) with Some (x, y, _) => (x, y) | None => (7, 7) end = (0, 2)) by (vm_compute; reflexivity). rewrite E in K. injection K as -> ->. reflexivity.
    - assert (K : match compute_laplacians joined (sorted_grid (rows joined)) None (Some (qn 2)) with Some _ => true | None => false end = true) by (vm_compute; reflexivity). rewrite E in K. discriminate K. }
  pose proof mats213_computed as HC. rewrite joined_times. assert (ET : between (times (rows later)) 0 2 = [qn 0; qn 1; qn 2]) by (vm_compute; reflexivity). rewrite ET in *. rewrite laps213_eq in HC. rewrite laps_joined_eq. unfold mats213 in *. rewrite !computed_step in *.
  destruct HC as (H1 & (F1 & H2 & H3) & H4 & (F2 & H5 & H6) & H7). split; [exact H1|]. split; [exists F1; split; [apply joined_step; [lia|exact H2]|exact H3]|]. split; [exact H4|]. split; [exists F2; split; [apply joined_step; [lia|exact H5]|exact H6]|exact H7].
Qed.
Example C215_merged_applies : nearly 3 (1 / 100)%R (between (times (rows joined)) 0 2) laps_joined mats215 [3 / 100; 3 / 100]%R /\
  keeps_contacts 3 (rows pieces) (nth 0 (times (rows joined)) 0%num) (nth 2 (times (rows joined)) 0%num) swap01 swap01.
Proof.
  split.
  - pose proof mats215_nearly as HC. rewrite joined_times. assert (ET : between (times (rows later)) 0 2 = [qn 0; qn 1; qn 2]) by (vm_compute; reflexivity). rewrite ET in *. rewrite laps213_eq in HC. rewrite laps_joined_eq. unfold mats215 in *. cbn [nearly] in *.
    destruct HC as (H1 & (F1 & H2 & H3) & H4 & (F2 & H5 & H6) & H7). split; [exact H1|]. split; [exists F1; split; [apply (joined_step 0); [lia|exact H2]|exact H3]|]. split; [exact H4|]. split; [exists F2; split; [apply (joined_step 1); [lia|exact H5]|exact H6]|exact H7].
  - assert (E0 : nth 0 (times (rows joined)) 0%num = qn 0) by (vm_compute; reflexivity). assert (E2 : nth 2 (times (rows joined)) 0%num = qn 2) by (vm_compute; reflexivity). rewrite E0, E2.
    split; [exact swap_renaming|]. assert (H : forall i j u, (u < qn 2)%num -> contact (rows pieces) i j u -> contact (rows pieces) (swap01 i) (swap01 j) u).
    { intros i j u Hu (e & He & HJ & H1 & H2). cbn [pieces rows map snd In] in He. destruct He as [<-|[<-|[<-|[]]]].
      - eexists. split; [cbn [pieces rows map snd In]; left; reflexivity|]. split; [|now split]. unfold joins in *. cbn [e_src e_tgt] in *. destruct HJ as [[<- <-]|[<- <-]]; cbn; tauto.
      - eexists. split; [cbn [pieces rows map snd In]; right; left; reflexivity|]. split; [|now split]. unfold joins in *. cbn [e_src e_tgt] in *. destruct HJ as [[<- <-]|[<- <-]]; cbn; tauto.
      - exfalso. exact (Qclt_not_le _ _ Hu H1). }
    intros i j u Hi Hj _ Hu. split; [|apply H; exact Hu]. intros Hc. apply (H _ _ _ Hu) in Hc. destruct (proj1 swap_renaming i Hi) as [_ E1]. destruct (proj1 swap_renaming j Hj) as [_ E3]. now rewrite E1, E3 in Hc.
Qed.
