(** Property C191, continued: the unit of time does not matter for the analysis of networks whose overlapping events are merged. *)
From Verif Require Import Base LouvainModel SparseModel EventsModel EventsSpec EventsProofs EventsProps LaplacianProofs TransModel TransSpec MatProofs
  TransProofs TransProps FlowModel FlowSpec FlowProofs FlowGridProofs FlowProps PipeModel PipeSpec PipeProofs PipeProps UnitProofs MergeProofs MergedPipeProps UnitProps.

(** * C191 *)
Theorem C191_merged_analysis : forall c d fuel srcs tgts starts ends N0 N g E P k q l dir, (0 < c)%num ->
  make_net 0 true false srcs tgts starts ends = Some N0 -> ids_ok N0 = true -> ordered (rows N0) -> no_self_contact (rows N0) -> make_net fuel true true srcs tgts starts ends = Some N -> rows N <> [] -> is_time_grid (rows N) g ->
  expm_ok (num_nodes_of N) E -> 2 <= length (times (rows N)) -> no_scale_keywords k -> k_fix k = false ->
  fits (num_nodes_of N) (k_p1 q) = true -> distribution_ok (num_nodes_of N) (given_density (k_p1 q)) -> k_grid q = None -> Forall usable l -> ~ In None l ->
  exists N' A A', make_net fuel true true srcs tgts (map (in_unit c d) starts) (map (in_unit c d) ends) = Some N' /\
    analysis (num_nodes_of N) (times (rows N)) (compute_laplacians N g) E P k q l dir (one_each dir l A) /\
    analysis (num_nodes_of N') (times (rows N')) (compute_laplacians N' (grid_in_unit c d g)) E P k q (map (option_map (fun t => c * t)%num) l) dir
      (one_each dir (map (option_map (fun t => c * t)%num) l) A') /\
    forall t rev, In (Some t) l -> wanted dir rev = true -> eqm (num_nodes_of N) (A' (Some (c * t)%num) rev) (A (Some t) rev).
Proof.
  intros c d fuel srcs tgts starts ends N0 N g E P k q l dir Hc HN0 Hok HOrd Hself0 HN Hne HG HE H2 Hk Hfix Hfit Hp Hg Hu Hnone.
  destruct (make_net_well _ _ _ _ _ _ HN0 HOrd Hok) as [HWell _]. pose proof HN as HM1. rewrite (make_net_merge _ _ _ _ _ N0 HN0) in HM1. destruct (merge_all_ok fuel N0 N HWell HM1) as ((HT & _ & Hids & _) & _ & _ & _ & _ & _ & Tw).
  assert (Hself : no_self_contact (rows N)) by (intros e He; destruct (Tw e He) as (f & Hf & -> & -> & _); now apply Hself0).
  assert (HX := C191_network c d fuel true true srcs tgts starts ends Hc). rewrite HN in HX.
  destruct (make_net fuel true true srcs tgts (map (in_unit c d) starts) (map (in_unit c d) ends)) as [N'|] eqn:HN'; [|destruct HX].
  destruct HX as (EN & ET & HX). destruct (HX g HG) as [HG' HLap]. exists N'.
  assert (EV : num_nodes_of N' = num_nodes_of N) by (unfold num_nodes_of; now rewrite EN).
  assert (ER : N' = conv_net c d N). { change (in_unit c d) with (conv c d) in HN'. rewrite (make_net_conv c d Hc), HN in HN'. now injection HN' as <-. }
  assert (Hne' : rows N' <> []). { rewrite ER. unfold conv_net, conv_table. cbn. destruct (rows N); [congruence|discriminate]. }
  assert (Hids' : ids_ok N' = true) by (rewrite ER, (ids_ok_conv c d); exact Hids).
  assert (Hself' : no_self_contact (rows N')). { rewrite ER. intros e He. cbn [conv_net rows] in He. clear - He Hself.
    assert (HI : exists f, e = conv_event c d f /\ In f (map snd (rows N))). { unfold conv_table in He. rewrite map_map in He. apply in_map_iff in He. destruct He as (r & <- & Hr). exists (snd r). split; [reflexivity|now apply in_map]. }
    destruct HI as (f & -> & Hf). exact (Hself f Hf). }
  assert (HO : own_index (rows N)) by (now apply reset_own).
  assert (HO' : own_index (rows N')). { apply reset_own. rewrite ER. unfold conv_net, conv_table, table_reset in *. cbn [rows]. rewrite map_map, map_length. exact HT. }
  destruct (net_laplacians N g Hne Hids Hself HO HG) as (HL & HS & Ls & HW). destruct (net_laplacians N' _ Hne' Hids' Hself' HO' HG') as (HL' & HS' & _ & _).
  assert (HW' : whole_time (times (rows N')) (compute_laplacians N' (grid_in_unit c d g)) Ls).
  { unfold whole_time in *. assert (Q := HLap None None). cbn [option_map] in Q. rewrite Q, HW, ET. now rewrite map_length. }
  assert (H2' : 2 <= length (times (rows N'))) by (rewrite ET, map_length; exact H2).
  assert (Hu' : Forall usable (map (option_map (fun t => c * t)%num) l)).
  { apply Forall_forall. intros x Hx. apply in_map_iff in Hx. destruct Hx as (y & <- & Hy). rewrite Forall_forall in Hu. specialize (Hu y Hy). destruct y as [t|]; cbn in *; [now apply qmult_pos|exact I]. }
  assert (Hnone' : ~ In None (map (option_map (fun t => c * t)%num) l)). { intros Hx. apply in_map_iff in Hx. destruct Hx as ([t|] & Ex & Hy); [discriminate|now apply Hnone]. }
  destruct (C152_analysis_partial _ _ _ E P Ls k q l dir HL HS HE HW H2 Hk Hfit Hp Hg Hu Hnone) as (s1 & s2 & s3 & A & A1 & A2 & A3 & A4 & A5).
  rewrite <- EV in HE, Hfit, Hp.
  destruct (C152_analysis_partial _ _ _ E P Ls k q _ dir HL' HS' HE HW' H2' Hk Hfit Hp Hg Hu' Hnone') as (s1' & s2' & s3' & A' & A1' & A2' & A3' & A4' & A5').
  exists A, A'. split; [reflexivity|]. split; [now exists s1, s2, s3|]. split; [now exists s1', s2', s3'|]. intros t rev Ht Hw.
  destruct (A5 t rev Ht Hw) as (M & HM & EA). destruct (A5' (c * t)%num rev) as (M' & HM' & EA'); [apply in_map_iff; now exists (Some t)|exact Hw|].
  rewrite EV in HM', EA'. rewrite Hfix in HM, HM'. eapply eqm_trans; [exact EA'|]. eapply eqm_trans; [|apply eqm_sym, EA]. rewrite ET in HM' |- *. rewrite map_length.
  assert (Hpt : (0 < t)%num) by (rewrite Forall_forall in Hu; exact (Hu _ Ht)).
  assert (HLM : length M = length (times (rows N)) - 1) by (destruct (proj2 HM ltac:(lia)) as [-> _]; lia).
  assert (HLM' : length M' = length M). { assert (Q := proj2 HM'). rewrite map_length in Q. destruct (Q ltac:(lia)) as [-> _]. lia. }
  apply average_in_unit; try assumption. now apply (walk_in_unit _ (times (rows N)) E c d Ls t).
Qed.
(** the network of C37, two of whose four events are merged *)
Example C191_merged_applies : make_net 0 true false [1; 0; 2; 0] [0; 1; 1; 1] [qn 1; qn 0; qn 3; qn 4] [qn 4; qn 2; qn 5; qn 6] = Some net37s /\ ids_ok net37s = true /\ ordered (rows net37s) /\ no_self_contact (rows net37s) /\
  exists N, make_net 9 true true [1; 0; 2; 0] [0; 1; 1; 1] [qn 1; qn 0; qn 3; qn 4] [qn 4; qn 2; qn 5; qn 6] = Some N /\ length (rows N) = 3 /\ num_nodes_of N = 3 /\ 2 <= length (times (rows N)).
Proof.
  split; [apply C37_applies|]. split; [reflexivity|]. split; [intros e He; cbn in He; repeat (destruct He as [<-|He]; [vm_compute; discriminate|]); destruct He|]. split; [exact (proj1 (proj2 C34_merged_applies))|].
  eexists. split; [reflexivity|]. split; [vm_compute; reflexivity|]. split; [vm_compute; reflexivity|]. vm_compute. lia.
Qed.
Print Assumptions C191_merged_analysis.
