(** Property C76, continued: the order in which instantaneous events are listed does not matter, nor do repetitions. *)
From Verif Require Import Base PartitionModel LouvainModel EventsModel EventsSpec EventsProofs LaplacianProofs MergeProofs InstProofs EventsProps.

Lemma next_unique starts a b b' : is_next starts a b -> is_next starts a b' -> b = b'.
Proof.
  intros [(I1 & L1 & H1)|[E1 H1]] [(I2 & L2 & H2)|[E2 H2]]; [| | |congruence].
  - destruct (H1 _ I2) as [K|K]; [qlra|]. destruct (H2 _ I1) as [K'|K']; [qlra|]. now apply Qcle_antisym.
  - specialize (H2 _ I1). qlra.
  - specialize (H1 _ I2). qlra.
Qed.
Lemma next_ext starts starts' a b : (forall x, In x starts <-> In x starts') -> is_next starts a b -> is_next starts' a b.
Proof.
  intros H [(I1 & L1 & H1)|[E1 H1]]; [left|right].
  - split; [now apply H|]. split; [exact L1|]. intros x Hx. now apply H1, H.
  - split; [exact E1|]. intros x Hx. now apply H1, H.
Qed.
Lemma combine_ends {X} (T : list (X * num)) (R : num -> num -> Prop) ends : Forall2 R (map snd T) ends ->
  (forall p b, In (p, b) (combine T ends) -> In p T /\ R (snd p) b) /\ (forall p, In p T -> exists b, In (p, b) (combine T ends)).
Proof.
  revert ends. induction T as [|q T IH]; intros ends HF; cbn [map] in HF; inversion_clear HF as [|? e ? ends' H1 H2]; cbn [combine].
  - split; [intros p b []|intros p []].
  - destruct (IH ends' H2) as [K1 K2]. split.
    + intros p b [E|E]; [injection E as <- <-; split; [now left|exact H1]|]. destruct (K1 p b E). split; [now right|assumption].
    + intros p [<-|Hp]; [exists e; now left|]. destruct (K2 p Hp) as [b Hb]. exists b. now right.
Qed.
Lemma snd_combine {X} (l : list X) (m : list num) : length l = length m -> map snd (combine l m) = m.
Proof. revert m. induction l as [|x l IH]; intros [|y m] H; cbn in *; try discriminate; [reflexivity|]. f_equal. apply IH. lia. Qed.

(** what the rows of such a network are *)
Lemma inst_rows_are reset srcs tgts starts N : starts <> [] -> length srcs = length starts -> length tgts = length starts -> make_inst_net reset srcs tgts starts = Some N ->
  rows N <> [] /\ own_index (rows N) /\ nodes N = node_array (rows N) /\
  forall e, In e (map snd (rows N)) <-> In (e_src e, e_tgt e, e_start e) (combine (combine srcs tgts) starts) /\ is_next starts (e_start e) (e_end e) /\ e_dur e = 1%num.
Proof.
  intros Hne H1 H2 HN. destruct (make_inst_net_spec reset srcs tgts starts Hne H1 H2) as (N1 & t & evs & ends & E & Ee & Ez & Eb & P & HO & Hn & Hr & HF).
  rewrite HN in E. injection E as <-. apply Forall2_left in HF.
  assert (LT : map snd (combine (combine srcs tgts) starts) = starts) by (apply snd_combine; rewrite combine_length; lia).
  rewrite <- LT in HF at 2. destruct (combine_ends _ _ _ HF) as [K1 K2]. fold (quads srcs tgts starts ends) in K1, K2.
  assert (HQ : forall e, In e (map snd (rows N)) <-> In (e_src e, e_tgt e, e_start e, e_end e) (quads srcs tgts starts ends) /\ e_dur e = 1%num).
  { intros e. rewrite <- (zip_quads _ _ _ _ _ Ez), Hr, map_map. cbn [snd]. rewrite in_map_iff. split.
    - intros (r & <- & Hr'). cbn [e_src e_tgt e_start e_end e_dur]. split; [|reflexivity]. apply (in_map (fun e => (e_src e, e_tgt e, e_start e, e_end e))). apply (Permutation_in _ P). now apply in_map.
    - intros [HI HD]. apply in_map_iff in HI as (f & Ef & Hf). apply (Permutation_in _ (Permutation_sym P)) in Hf. apply in_map_iff in Hf as (r & <- & Hr'). exists r. split; [|exact Hr'].
      destruct e as [a b u v d]. cbn [e_src e_tgt e_start e_end e_dur] in *. congruence. }
  split; [|split; [exact HO|split]].
  - intros E0. destruct starts as [|u starts]; [now apply Hne|]. destruct srcs as [|a srcs]; [discriminate H1|]. destruct tgts as [|b tgts]; [discriminate H2|].
    destruct (K2 (a, b, u) ltac:(now left)) as [v Hv]. assert (Q := proj2 (HQ (mkEv a b u v 1%num)) (conj Hv eq_refl)). rewrite E0 in Q. destruct Q.
  - rewrite Hn, Hr. unfold node_array. rewrite !map_map. reflexivity.
  - intros e. rewrite HQ. split.
    + intros [HI HD]. destruct (K1 _ _ HI) as [Q1 Q2]. now repeat split.
    + intros (HI & HX & HD). split; [|exact HD]. destruct (K2 _ HI) as [v Hv]. destruct (K1 _ _ Hv) as [_ Q2]. cbn [snd] in Q2. now rewrite (next_unique _ _ _ _ HX Q2).
Qed.

(** * C76: instantaneous events *)
Theorem C76_instantaneous : forall reset reset' srcs tgts starts srcs' tgts' starts' N, starts <> [] -> length srcs = length starts -> length tgts = length starts ->
  length srcs' = length starts' -> length tgts' = length starts' ->
  (* the same events, in any order, any number of times each *)
  (forall s t u, In (s, t, u) (combine (combine srcs tgts) starts) <-> In (s, t, u) (combine (combine srcs' tgts') starts')) ->
  make_inst_net reset srcs tgts starts = Some N ->
  exists N', make_inst_net reset' srcs' tgts' starts' = Some N' /\ nodes N' = nodes N /\ times (rows N') = times (rows N) /\
    (ids_ok N = true -> no_self_contact (rows N) -> forall g g' a b, is_time_grid (rows N) g -> is_time_grid (rows N') g' ->
      exists ka kb Ls Ls', inst_laplacians N g a b = Some (ka, kb, Ls) /\ inst_laplacians N' g' a b = Some (ka, kb, Ls') /\ length Ls' = length Ls /\
        forall k i j, k < length Ls -> i < num_nodes_of N -> j < num_nodes_of N -> nth k Ls' (fun _ _ => 0%num) i j = nth k Ls (fun _ _ => 0%num) i j).
Proof.
  intros reset reset' srcs tgts starts srcs' tgts' starts' N Hne H1 H2 H1' H2' HE HN.
  assert (LT : map snd (combine (combine srcs tgts) starts) = starts) by (apply snd_combine; rewrite combine_length; lia).
  assert (LT' : map snd (combine (combine srcs' tgts') starts') = starts') by (apply snd_combine; rewrite combine_length; lia).
  assert (HS : forall x, In x starts <-> In x starts').
  { intros x. rewrite <- LT, <- LT', !in_map_iff. split; intros ([[s t] u] & Ex & Hx); exists (s, t, u); (split; [exact Ex|now apply HE]). }
  assert (Hne' : starts' <> []). { intros E0. destruct starts as [|u l]; [now apply Hne|]. assert (Q := proj1 (HS u) (or_introl eq_refl)). rewrite E0 in Q. destruct Q. }
  destruct (make_inst_net_spec reset' srcs' tgts' starts' Hne' H1' H2') as (N' & _ & _ & _ & HN' & _). exists N'. split; [exact HN'|].
  destruct (inst_rows_are _ _ _ _ _ Hne H1 H2 HN) as (R1 & R2 & R3 & R4). destruct (inst_rows_are _ _ _ _ _ Hne' H1' H2' HN') as (R1' & R2' & R3' & R4').
  assert (HR : forall e, In e (map snd (rows N)) <-> In e (map snd (rows N'))).
  { intros e. rewrite R4, R4', HE. split; intros (A1 & A2 & A3); (split; [exact A1|split; [|exact A3]]); eapply next_ext; try exact A2; intros x; [apply HS|symmetry; apply HS]. }
  assert (Hn : nodes N' = nodes N) by (rewrite R3, R3'; symmetry; now apply node_array_ext). pose proof (times_ext _ _ HR) as HT.
  split; [exact Hn|]. split; [now symmetry|]. intros Hids Hself g g' a b HG HG'.
  assert (Hids' : ids_ok N' = true). { rewrite ids_ok_spec in *. unfold num_nodes_of in *. rewrite Hn. intros e He. apply Hids. now apply HR. }
  assert (Hself' : no_self_contact (rows N')) by (intros e He; apply Hself; now apply HR).
  destruct (inst_laplacians_spec N g a b R1 Hids Hself R2 HG) as (ka & kb & Ls & E & Sa & Sb & HLen & HK).
  destruct (inst_laplacians_spec N' g' a b R1' Hids' Hself' R2' HG') as (ka' & kb' & Ls' & E' & Sa' & Sb' & HLen' & HK').
  assert (HKab : ka' = ka /\ kb' = kb).
  { unfold inst_laplacians in E, E'. rewrite Hids in E. rewrite Hids' in E'. rewrite <- HT in E'. destruct (window (times (rows N)) a b) as [[[ta qa] [tb qb]]|]; [|discriminate E].
    destruct (inst_groups (rows N) g _); [|discriminate E]. destruct (inst_groups (rows N') g' _); [|discriminate E']. cbn in E, E'. split; congruence. }
  destruct HKab as [-> ->]. exists ka, kb, Ls, Ls'. split; [exact E|]. split; [exact E'|]. split; [lia|]. intros k i j Hk Hi Hj. rewrite HLen in Hk.
  apply (walk_laplacian_unique (num_nodes_of N) (fun i j => starting (rows N') i j (nth (ka + k) (times (rows N)) 0%num)) (fun i j => starting (rows N) i j (nth (ka + k) (times (rows N)) 0%num))); try assumption.
  - specialize (HK' k Hk). rewrite <- HT in HK'. unfold num_nodes_of in *. now rewrite Hn in HK'.
  - exact (HK k Hk).
  - intros x y. split; intros (e & He & Hx); exists e; (split; [now apply HR|assumption]).
Qed.
(** the network of C45, with the events in another order and one of them repeated *)
Example C76_instantaneous_applies : make_inst_net true [0; 0; 1] [2; 1; 2] [qn 2; qn 0; qn 0] = Some net45 /\ ids_ok net45 = true /\ no_self_contact (rows net45) /\
  (forall s t u, In (s, t, u) (combine (combine [0; 0; 1] [2; 1; 2]) [qn 2; qn 0; qn 0]) <-> In (s, t, u) (combine (combine [1; 0; 0; 1] [2; 2; 1; 2]) [qn 0; qn 2; qn 0; qn 0])).
Proof. split; [apply C45_applies|]. split; [apply C45_applies|]. split; [apply C45_applies|]. intros s t u. cbn [combine In]. tauto. Qed.
Print Assumptions C76_instantaneous.
