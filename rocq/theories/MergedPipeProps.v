(** Properties C39, C152 and C191, continued: networks whose overlapping events are merged can be analysed. *)
From Verif Require Import Base PartitionModel PartitionSpec LouvainModel LouvainSpec SparseModel EventsModel EventsSpec EventsProofs EventsProps LaplacianProofs MergeProofs
  TransModel TransSpec MatProofs TransProofs TransProps FlowModel FlowSpec FlowProofs FlowGridProofs FlowProps PipeModel PipeSpec PipeProofs PipeProps.

Lemma net_laplacians N g : rows N <> [] -> ids_ok N = true -> no_self_contact (rows N) -> own_index (rows N) -> is_time_grid (rows N) g ->
  laplacians_ok (num_nodes_of N) (times (rows N)) (compute_laplacians N g) /\ StronglySorted Qclt (times (rows N)) /\ exists Ls, whole_time (times (rows N)) (compute_laplacians N g) Ls.
Proof.
  intros Hne Hids Hself HO HG. split; [|split; [apply times_sorted|]].
  - intros a b. destruct (laplacians_gen N g a b (fun _ _ => True) (fun _ _ => True)) as (ka & kb & Ls & E & Ha & Hb & Sa & Sb & HLen & HK); auto.
    exists ka, kb, Ls. repeat (split; [assumption|]). intros k Hk. destruct (HK k Hk) as (on & s & W & _ & En). replace (nth k Ls ident) with (nth k Ls (fun _ _ => 0%num)) by (apply nth_indep; lia). rewrite En.
    apply (walk_like_graph _ on); [apply W|intros; now apply laplacian_walk].
  - destruct (laplacians_gen N g None None (fun _ _ => True) (fun _ _ => True)) as (ka & kb & Ls & E & _ & _ & Sa & Sb & _); auto.
    exists Ls. unfold whole_time. cbn in Sa, Sb. subst ka. rewrite E. f_equal. f_equal. f_equal. lia.
Qed.
(** * C39, C152: the matrices of a merged network meet the conditions of the analysis *)
Theorem C152_merged_whole : forall fuel srcs tgts starts ends N0 N g, make_net 0 true false srcs tgts starts ends = Some N0 -> ids_ok N0 = true -> ordered (rows N0) -> no_self_contact (rows N0) ->
  make_net fuel true true srcs tgts starts ends = Some N -> rows N <> [] -> is_time_grid (rows N) g ->
  laplacians_ok (num_nodes_of N) (times (rows N)) (compute_laplacians N g) /\ StronglySorted Qclt (times (rows N)) /\ exists Ls, whole_time (times (rows N)) (compute_laplacians N g) Ls.
Proof.
  intros fuel srcs tgts starts ends N0 N g HN0 Hok HOrd Hself HM Hne HG. destruct (make_net_well _ _ _ _ _ _ HN0 HOrd Hok) as [HW _]. rewrite (make_net_merge _ _ _ _ _ N0 HN0) in HM.
  destruct (merge_all_ok fuel N0 N HW HM) as ((HT & _ & Hids1 & _) & _ & _ & _ & _ & _ & Tw). apply net_laplacians; [exact Hne|exact Hids1| |now apply reset_own|exact HG].
  intros e He. destruct (Tw e He) as (f & Hf & -> & -> & _). now apply Hself.
Qed.
Print Assumptions C152_merged_whole.
(* the network of C37, two of whose four events are merged *)
Example C152_merged_applies : ids_ok net37s = true /\ ordered (rows net37s) /\ no_self_contact (rows net37s) /\
  exists N, make_net 9 true true [1; 0; 2; 0] [0; 1; 1; 1] [qn 1; qn 0; qn 3; qn 4] [qn 4; qn 2; qn 5; qn 6] = Some N /\ length (rows N) = 3 /\ is_time_grid (rows N) (sorted_grid (rows N)).
Proof.
  split; [reflexivity|]. split; [intros e He; cbn in He; repeat (destruct He as [<-|He]; [vm_compute; discriminate|]); destruct He|]. split; [exact (proj1 (proj2 C34_merged_applies))|].
  eexists. split; [reflexivity|]. split; [reflexivity|]. apply grid_exists.
Qed.
