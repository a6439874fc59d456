(** C191: the unit and the origin of time do not matter. *)
From Verif Require Import Base LouvainModel SparseModel EventsModel EventsSpec EventsProofs EventsProps LaplacianProofs TransModel TransSpec MatProofs
  TransProofs TransProps FlowModel FlowSpec FlowProofs FlowGridProofs FlowProps PipeModel PipeSpec PipeProofs PipeProps UnitProofs.

(** ** Vocabulary *)
(** a time t becomes c t + d *)
Definition in_unit (c d t : num) : num := (c * t + d)%num.
(** the rows of the grid with other times *)
Definition grid_in_unit (c d : num) (g : list grid_row) : list grid_row := map (fun r => mkRow (in_unit c d (g_time r)) (g_id r) (g_is_start r)) g.
(** a run of all steps of an analysis with time scales [l] *)
Definition analysis (n : nat) (ts : list num) lapf E P k q (l : list (option num)) dir out : Prop := exists s1 s2 s3,
  step_laplacians lapf (new_analysis l dir) = (s1, true) /\ step_inter n ts lapf E P false k s1 = (s2, true) /\ step_flow n ts q s2 = (s3, true) /\ step_louvain s3 = Some out.

(** * C191 *)
(** networks: the same nodes, times in the new unit, the same Laplacians for every window *)
Theorem C191_network : forall c d fuel reset merge srcs tgts starts ends, (0 < c)%num ->
  match make_net fuel reset merge srcs tgts starts ends, make_net fuel reset merge srcs tgts (map (in_unit c d) starts) (map (in_unit c d) ends) with
  | Some N, Some N' => nodes N' = nodes N /\ times (rows N') = map (in_unit c d) (times (rows N)) /\
      forall g, is_time_grid (rows N) g -> is_time_grid (rows N') (grid_in_unit c d g) /\
        forall a b, compute_laplacians N' (grid_in_unit c d g) (option_map (in_unit c d) a) (option_map (in_unit c d) b) = compute_laplacians N g a b
  | None, None => True
  | _, _ => False
  end.
Proof.
  intros c d fuel reset merge srcs tgts starts ends Hc. change (in_unit c d) with (conv c d). rewrite (make_net_conv c d Hc).
  destruct (make_net fuel reset merge srcs tgts starts ends) as [N|]; cbn [option_map]; [|exact I]. split; [reflexivity|]. split; [apply (times_conv c d Hc)|].
  intros g HG. split; [now apply (time_grid_conv c d Hc)|]. intros a b. exact (laplacians_conv c d Hc N g a b).
Qed.

Lemma chain_same n l : forall l', Forall2 (eqm n) l l' -> eqm n (chain n l) (chain n l').
Proof. intros l' H. induction H as [|A B l l' HA H IH]; [apply eqm_refl|]. cbn. now apply mmul_ext. Qed.
Lemma Forall2_firstn {A B} (R : A -> B -> Prop) k l l' : Forall2 R l l' -> Forall2 R (firstn k l) (firstn k l').
Proof. intros H. revert k. induction H as [|a b l l' Ha H IH]; intros [|k]; cbn; constructor; auto. Qed.
Lemma Forall2_rev' {A B} (R : A -> B -> Prop) l l' : Forall2 R l l' -> Forall2 R (rev l) (rev l').
Proof. intros H. induction H as [|a b l l' Ha H IH]; cbn; [constructor|]. apply Forall2_app; [exact IH|constructor; [exact Ha|constructor]]. Qed.
Lemma in_unit_sub c d a b : (in_unit c d a - in_unit c d b)%num = (c * (a - b))%num.
Proof. unfold in_unit. ring. Qed.
Lemma nth_in_unit c d ts k : k < length ts -> nth k (map (in_unit c d) ts) 0%num = in_unit c d (nth k ts 0%num).
Proof. intros H. rewrite (nth_indep _ 0%num (in_unit c d 0%num)) by now rewrite map_length. apply map_nth. Qed.
Lemma walk_in_unit n ts E c d Ls t M M' : (0 < c)%num -> (0 < t)%num -> walk_matrices n ts E false Ls t M -> walk_matrices n (map (in_unit c d) ts) E false Ls (c * t)%num M' ->
  length M = length ts - 1 -> length M' = length M -> Forall2 (eqm n) M M'.
Proof.
  intros Hc Ht [H0 H1] [H0' H1'] HL HL'. rewrite map_length in *. destruct (Nat.eq_dec (length ts - 1) 0) as [Z|Z].
  - destruct M; cbn in HL; [|lia]. destruct M'; [constructor|cbn in HL'; lia].
  - destruct (H1 ltac:(lia)) as [_ HK]. destruct (H1' ltac:(lia)) as [_ HK'].
    assert (HP : forall k, k < length M -> eqm n (nth k M ident) (nth k M' ident)).
    { intros k Hk. eapply eqm_trans; [apply HK; lia|]. apply eqm_sym. eapply eqm_trans; [apply HK'; lia|].
      match goal with |- eqm n (E ?x _) (E ?y _) => replace x with y; [apply eqm_refl|] end. unfold step_length. rewrite !nth_in_unit by lia. rewrite in_unit_sub. field. split; now apply qneq_pos. }
    clear - HL' HP. revert M' HL' HP. induction M as [|A M IH]; intros [|B M'] HL' HP; try discriminate HL'; constructor; [apply (HP 0); cbn; lia|].
    apply IH; [now injection HL'|]. intros k Hk. apply (HP (S k)). cbn. lia.
Qed.
Lemma average_in_unit n M M' p1 ts c d r : (0 < c)%num -> length M = length ts - 1 -> 2 <= length ts -> Forall2 (eqm n) M M' ->
  eqm n (flow_average n None (Some M') p1 (Some (map (in_unit c d) ts)) r (length ts - 1)) (flow_average n None (Some M) p1 (Some ts) r (length ts - 1)).
Proof.
  intros Hc HL H2 HM. assert (HL' : length M' = length M) by (clear - HM; induction HM; cbn; congruence).
  apply (same_average n None (Some M) None (Some M') p1 (Some ts) (Some (map (in_unit c d) ts)) r r (in_unit c d) c Hc).
  - intros a b. rewrite in_unit_sub. unfold qabs. destruct (qltb_spec (a - b)%num 0%num) as [H|H], (qltb_spec (c * (a - b))%num 0%num) as [H'|H']; try ring.
    + exfalso. apply H'. assert (G := qmult_pos c (- (a - b))%num Hc). replace (c * (a - b))%num with (- (c * - (a - b)))%num by ring. assert (G1 : (0 < c * - (a - b))%num) by (apply G; revert H; generalize (a - b)%num; clear; qlra).
      revert G1. generalize (c * - (a - b))%num. clear. qlra.
    + exfalso. apply Qcnot_lt_le in H. assert (G := qmult_nonneg c (a - b)%num (Qclt_le_weak _ _ Hc) H). revert H' G. generalize (c * (a - b))%num. clear. qlra.
  - unfold flow_times. cbn [the_times]. destruct r; [symmetry; apply map_rev|reflexivity].
  - unfold steps_in. cbn [given the_times]. rewrite map_length. lia.
  - intros k Hk. unfold flow_transition, transition. cbn [given]. apply chain_same, Forall2_firstn. unfold in_order.
    assert (HM' : Forall2 (eqm n) M' M) by (clear - HM; induction HM; constructor; [now apply eqm_sym|assumption]). destruct r; [now apply Forall2_rev'|exact HM'].
  - lia.
  - unfold steps_in. cbn [given the_times]. lia.
Qed.
(** the whole analysis: the same matrices are clustered when the times of the events and the time scales are given in another unit *)
Theorem C191_analysis : forall c d fuel reset srcs tgts starts ends N g E P k q l dir, (0 < c)%num ->
  make_net fuel reset false srcs tgts starts ends = Some N -> rows N <> [] -> ids_ok N = true -> no_self_contact (rows N) -> is_time_grid (rows N) g ->
  expm_ok (num_nodes_of N) E -> 2 <= length (times (rows N)) -> no_scale_keywords k -> k_fix k = false ->
  fits (num_nodes_of N) (k_p1 q) = true -> distribution_ok (num_nodes_of N) (given_density (k_p1 q)) -> k_grid q = None -> Forall usable l -> ~ In None l ->
  exists N' A A', make_net fuel reset false srcs tgts (map (in_unit c d) starts) (map (in_unit c d) ends) = Some N' /\
    analysis (num_nodes_of N) (times (rows N)) (compute_laplacians N g) E P k q l dir (one_each dir l A) /\
    analysis (num_nodes_of N') (times (rows N')) (compute_laplacians N' (grid_in_unit c d g)) E P k q (map (option_map (fun t => c * t)%num) l) dir
      (one_each dir (map (option_map (fun t => c * t)%num) l) A') /\
    forall t rev, In (Some t) l -> wanted dir rev = true -> eqm (num_nodes_of N) (A' (Some (c * t)%num) rev) (A (Some t) rev).
Proof.
  intros c d fuel reset srcs tgts starts ends N g E P k q l dir Hc HN Hne Hids Hself HG HE H2 Hk Hfix Hfit Hp Hg Hu Hnone.
  assert (HX := C191_network c d fuel reset false srcs tgts starts ends Hc). rewrite HN in HX.
  destruct (make_net fuel reset false srcs tgts (map (in_unit c d) starts) (map (in_unit c d) ends)) as [N'|] eqn:HN'; [|destruct HX].
  destruct HX as (EN & ET & HX). destruct (HX g HG) as [HG' HLap]. exists N'.
  assert (EV : num_nodes_of N' = num_nodes_of N) by (unfold num_nodes_of; now rewrite EN).
  assert (ER : N' = conv_net c d N). { change (in_unit c d) with (conv c d) in HN'. rewrite (make_net_conv c d Hc), HN in HN'. now injection HN' as <-. }
  assert (Hne' : rows N' <> []). { rewrite ER. unfold conv_net, conv_table. cbn. destruct (rows N); [congruence|discriminate]. }
  assert (Hids' : ids_ok N' = true) by (rewrite ER, (ids_ok_conv c d); exact Hids).
  assert (Hself' : no_self_contact (rows N')). { rewrite ER. intros e He. cbn [conv_net rows] in He. clear - He Hself.
    assert (HI : exists f, e = conv_event c d f /\ In f (map snd (rows N))). { unfold conv_table in He. rewrite map_map in He. apply in_map_iff in He. destruct He as (r & <- & Hr). exists (snd r). split; [reflexivity|now apply in_map]. }
    destruct HI as (f & -> & Hf). exact (Hself f Hf). }
  destruct (C39_network_laplacians _ _ _ _ _ _ N g HN Hne Hids Hself HG) as [HL HS]. destruct (C39_network_laplacians _ _ _ _ _ _ N' _ HN' Hne' Hids' Hself' HG') as [HL' HS'].
  destruct (C152_network_whole _ _ _ _ _ _ N g HN Hne Hids Hself HG) as [Ls HW].
  assert (HW' : whole_time (times (rows N')) (compute_laplacians N' (grid_in_unit c d g)) Ls).
  { unfold whole_time in *. assert (Q := HLap None None). cbn [option_map] in Q. rewrite Q, HW, ET. now rewrite map_length. }
  assert (H2' : 2 <= length (times (rows N'))) by (rewrite ET, map_length; exact H2).
  assert (Hu' : Forall usable (map (option_map (fun t => c * t)%num) l)).
  { apply Forall_forall. intros x Hx. apply in_map_iff in Hx. destruct Hx as (y & <- & Hy). rewrite Forall_forall in Hu. specialize (Hu y Hy). destruct y as [t|]; cbn in *; [now apply qmult_pos|exact I]. }
  assert (Hnone' : ~ In None (map (option_map (fun t => c * t)%num) l)). { intros Hx. apply in_map_iff in Hx. destruct Hx as ([t|] & Ex & Hy); [discriminate|now apply Hnone]. }
  destruct (C152_analysis_partial _ _ _ E P Ls k q l dir HL HS HE HW H2 Hk Hfit Hp Hg Hu Hnone) as (s1 & s2 & s3 & A & A1 & A2 & A3 & A4 & A5).
  rewrite <- EV in HE, Hfit, Hp.
  destruct (C152_analysis_partial _ _ _ E P Ls k q _ dir HL' HS' HE HW' H2' Hk Hfit Hp Hg Hu' Hnone') as (s1' & s2' & s3' & A' & A1' & A2' & A3' & A4' & A5').
  exists A, A'. split; [reflexivity|]. split; [now exists s1, s2, s3|]. split; [now exists s1', s2', s3'|]. intros t rev Ht Hw.
  destruct (A5 t rev Ht Hw) as (M & HM & EA). destruct (A5' (c * t)%num rev) as (M' & HM' & EA'); [apply in_map_iff; now exists (Some t)|exact Hw|].
  rewrite EV in HM', EA'. rewrite Hfix in HM, HM'. eapply eqm_trans; [exact EA'|]. eapply eqm_trans; [|apply eqm_sym, EA]. rewrite ET in HM' |- *. rewrite map_length.
  assert (Hpt : (0 < t)%num) by (rewrite Forall_forall in Hu; exact (Hu _ Ht)).
  assert (HLM : length M = length (times (rows N)) - 1) by (destruct (proj2 HM ltac:(lia)) as [-> _]; lia).
  assert (HLM' : length M' = length M). { assert (Q := proj2 HM'). rewrite map_length in Q. destruct (Q ltac:(lia)) as [-> _]. lia. }
  apply average_in_unit; try assumption. now apply (walk_in_unit _ (times (rows N)) E c d Ls t).
Qed.
(** a network of three nodes with times in seconds instead of minutes, counted from another moment *)
Example C191_applies : let dist := Some [qf 1 2; qf 1 4; qf 1 4] in
  make_net 0 true false [0; 1] [1; 2] [qn 0; qn 1] [qn 1; qn 3] = Some net39 /\ rows net39 <> [] /\ ids_ok net39 = true /\ no_self_contact (rows net39) /\
  is_time_grid (rows net39) (sorted_grid (rows net39)) /\ num_nodes_of net39 = 3 /\ expm_ok 3 Estep /\ 2 <= length (times (rows net39)) /\ no_scale_keywords (mkIk None (Some None) false true 1%num) /\
  fits 3 dist = true /\ distribution_ok 3 (given_density dist) /\ Forall usable [Some 1%num; Some (qn 5)] /\ (0 < qn 60)%num /\
  map (in_unit (qn 60) (qn 7)) [qn 0; qn 1; qn 3] = [qn 7; qn 67; qn 187].
Proof.
  destruct C39_applies as (H1 & H2 & H3 & H4 & H5 & H6 & _). destruct C152_applies as (_ & _ & _ & K2 & _ & K4 & K5 & K6 & _).
  intros dist. repeat (split; [first [assumption|reflexivity]|]). split; [repeat constructor|]. split; [reflexivity|vm_compute; repeat f_equal; now apply Qc_is_canon].
Qed.
Print Assumptions C191_network.
Print Assumptions C191_analysis.
