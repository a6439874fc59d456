(** Property C217: instantaneous events as events that last until the next time. *)
From Verif Require Import Base PartitionModel LouvainModel EventsModel EventsSpec EventsProofs LaplacianProofs MergeProofs InstProofs EventsProps OrderInstProps InstUnitProps.

Lemma next_ends starts l ends ends' : Forall2 (is_next starts) l ends -> Forall2 (is_next starts) l ends' -> ends = ends'.
Proof.
  intros H. revert ends'. induction H as [|a b l m H HF IH]; intros ends' H'; inversion_clear H'; [reflexivity|]. f_equal; [now apply (next_unique starts a)|now apply IH].
Qed.

(** * C217 *)
Theorem C217_lasting : forall srcs tgts starts ends N M, starts <> [] -> length srcs = length starts -> length tgts = length starts ->
  make_inst_net true srcs tgts starts = Some N ->
  (* the same events, each of which lasts until the next time at which something happens, or one unit *)
  Forall2 (is_next starts) starts ends -> make_net 0 true false srcs tgts starts ends = Some M ->
  nodes N = nodes M /\ times (rows N) = times (rows M) /\
  (* if no two of the events concern the same nodes at the same time *)
  (ids_ok M = true -> no_self_contact (rows M) -> no_overlap (rows M) -> forall g g' a b, is_time_grid (rows N) g -> is_time_grid (rows M) g' ->
    exists ka kb Ls Ls', inst_laplacians N g a b = Some (ka, kb, Ls) /\ compute_laplacians M g' a b = Some (ka, kb, Ls') /\ length Ls' = length Ls /\
      forall k i j, k < length Ls -> i < num_nodes_of N -> j < num_nodes_of N -> nth k Ls' (fun _ _ => 0%num) i j = nth k Ls (fun _ _ => 0%num) i j).
Proof.
  intros srcs tgts starts ends N M Hne H1 H2 HN HF HM.
  destruct (make_inst_net_spec true srcs tgts starts Hne H1 H2) as (N1 & t & evs & ends1 & E & Ee & Ez & Eb & P & HO & Hn & Hr & HF1). rewrite HN in E. injection E as <-. apply Forall2_left in HF1.
  rewrite (next_ends _ _ _ _ HF1 HF) in *. clear HF1. pose proof HM as HM'. unfold make_net in HM'. rewrite Eb in HM'. injection HM' as HM'. assert (ER : rows M = t) by now rewrite <- HM'. assert (EN : nodes M = node_array t) by now rewrite <- HM'. clear HM'.
  assert (HIn : forall e, In e (map snd (rows N)) <-> exists f, In f (map snd (rows M)) /\ e = mkEv (e_src f) (e_tgt f) (e_start f) (e_end f) 1%num).
  { intros e. rewrite Hr, ER, map_map. cbn [snd]. rewrite in_map_iff. split.
    - intros (r & <- & Hr'). exists (snd r). split; [now apply in_map|reflexivity].
    - intros (f & Hf & ->). apply in_map_iff in Hf as (r & <- & Hr'). now exists r. }
  assert (Hn' : nodes N = nodes M) by congruence. split; [exact Hn'|].
  assert (HT : times (rows N) = times (rows M)).
  { apply qsorted_unique; try apply times_sorted. intros x. rewrite !times_in. split.
    - intros (e & He & Hx). apply HIn in He as (f & Hf & ->). now exists f.
    - intros (f & Hf & Hx). eexists. split; [apply HIn; exists f; now split|exact Hx]. }
  split; [exact HT|]. intros Hids Hself HV g g' a b HG HG'.
  destruct (inst_rows_are _ _ _ _ _ Hne H1 H2 HN) as (R1 & R2 & _ & R4).
  assert (HidsN : ids_ok N = true). { rewrite ids_ok_spec in *. unfold num_nodes_of in *. rewrite Hn'. intros e He. apply HIn in He as (f & Hf & ->). exact (Hids f Hf). }
  assert (HselfN : no_self_contact (rows N)). { intros e He. apply HIn in He as (f & Hf & ->). exact (Hself f Hf). }
  assert (HX : forall f, In f (map snd (rows M)) -> In (e_start f) starts /\ is_next starts (e_start f) (e_end f)).
  { intros f Hf. assert (Q := proj2 (HIn _) (ex_intro _ f (conj Hf eq_refl))). apply R4 in Q as (Q1 & Q2 & _). cbn [e_src e_tgt e_start e_end] in Q1, Q2. split; [exact (in_combine_r _ _ _ _ Q1)|exact Q2]. }
  assert (HL : lasting (rows M)). { intros f Hf. destruct (HX f Hf) as [_ [(_ & Hlt & _)|[-> _]]]; [exact Hlt|qlra]. }
  assert (RM : rows M <> []). { intros E0. apply R1. rewrite Hr. rewrite ER in E0. now rewrite E0. }
  destruct (make_net_index _ _ _ _ _ _ HM) as [HOM HXM].
  destruct (inst_laplacians_spec N g a b R1 HidsN HselfN R2 HG) as (ka & kb & Ls & E & Sa & Sb & HLen & HK).
  destruct (lap_exact M g' a b RM Hids Hself HL HV HOM HXM HG') as (ka' & kb' & Ls' & E' & Sa' & Sb' & HLen' & La' & Lb' & HK').
  assert (HW : ka' = ka /\ kb' = kb).
  { unfold inst_laplacians in E. unfold compute_laplacians in E'. rewrite HidsN in E. rewrite Hids in E'. rewrite HT in E. destruct (window (times (rows M)) a b) as [[[ta qa] [tb qb]]|]; [|discriminate E].
    split; repeat match type of E with context [match ?x with _ => _ end] => destruct x; try discriminate E end; repeat match type of E' with context [match ?x with _ => _ end] => destruct x; try discriminate E' end; cbn in E, E'; congruence. }
  destruct HW as [-> ->]. exists ka, kb, Ls, Ls'. split; [exact E|]. split; [exact E'|]. split; [lia|]. intros k i j Hk Hi Hj. rewrite HLen in Hk.
  set (ts := times (rows M)) in *. assert (HS : StronglySorted Qclt ts) by apply times_sorted. rewrite HT in HK.
  assert (Hlt : (nth (ka + k) ts 0 < nth (S (ka + k)) ts 0)%num) by (apply qsorted_nth; [exact HS|lia|lia]).
  assert (Hu : In (nth (ka + k) ts 0%num) starts).
  { assert (Q1 : In (nth (ka + k) ts 0%num) ts) by (apply nth_In; lia). assert (Q2 : In (nth (S (ka + k)) ts 0%num) ts) by (apply nth_In; lia).
    pose proof (inst_times _ _ _ _ _ Hne H1 H2 HN) as HI. rewrite HT in HI. fold ts in HI. rewrite HI in Q1 at 2. rewrite HI in Q2 at 2. apply in_app_or in Q1 as [Q1|[Q1|[]]]; [now apply uniq_times_in|]. exfalso.
    apply in_app_or in Q2 as [Q2|[Q2|[]]]; [|qlra]. apply (sorted_last_max _ 0%num) in Q2; [|apply uniq_times_sorted]. qlra. }
  unfold num_nodes_of in *. rewrite Hn' in *.
  apply (walk_laplacian_unique (length (nodes M)) (fun i j => contact (rows M) i j (nth (ka + k) ts 0%num)) (fun i j => starting (rows N) i j (nth (ka + k) ts 0%num))); try assumption.
  - apply HK'; [exact Hk|apply Qcle_refl|exact Hlt].
  - exact (HK k Hk).
  - intros x y. split.
    + intros (f & Hf & HJ & [A1 A2]). eexists. split; [apply HIn; exists f; split; [exact Hf|reflexivity]|]. split; [exact HJ|]. cbn [e_start]. destruct (HX f Hf) as [_ [(_ & _ & Q)|[_ Q]]]; [destruct (Q _ Hu); apply Qcle_antisym; try assumption; exfalso; qlra|]. specialize (Q _ Hu). now apply Qcle_antisym.
    + intros (e & He & HJ & <-). apply HIn in He as (f & Hf & ->). exists f. split; [exact Hf|]. split; [exact HJ|]. cbn [e_start]. split; [apply Qcle_refl|now apply HL].
Qed.
(** the network of C45: events at 0 that last until 2, and one at 2 that lasts until 3 *)
Example C217_applies : exists M, make_inst_net true [0; 0; 1] [2; 1; 2] [qn 2; qn 0; qn 0] = Some net45 /\ Forall2 (is_next [qn 2; qn 0; qn 0]) [qn 2; qn 0; qn 0] [(qn 2 + 1)%num; qn 2; qn 2] /\
  make_net 0 true false [0; 0; 1] [2; 1; 2] [qn 2; qn 0; qn 0] [(qn 2 + 1)%num; qn 2; qn 2] = Some M /\ ids_ok M = true /\ no_self_contact (rows M) /\ no_overlap (rows M).
Proof.
  eexists. split; [apply C45_applies|]. split.
  - assert (H0 : is_next [qn 2; qn 0; qn 0] (qn 0) (qn 2)).
    { left. split; [now left|]. split; [reflexivity|]. intros x [<-|[<-|[<-|[]]]]; [right; discriminate|left; discriminate|left; discriminate]. }
    constructor; [|constructor; [exact H0|constructor; [exact H0|constructor]]]. right. split; [reflexivity|]. intros x [<-|[<-|[<-|[]]]]; discriminate.
  - split; [reflexivity|]. split; [reflexivity|]. split; [intros e; in_cases; cbn; lia|].
    intros x y e f i j He Hf Hxy J1 J2; cbn in He, Hf; destruct He as [He|[He|[He|[]]]], Hf as [Hf|[Hf|[Hf|[]]]]; injection He as <- <-; injection Hf as <- <-; try congruence; unfold joins in J1, J2; cbn in J1, J2; lia.
Qed.
Print Assumptions C217_lasting.
