(** Property C216: the unit of time of networks of instantaneous events. *)
From Verif Require Import Base PartitionModel LouvainModel EventsModel EventsSpec EventsProofs LaplacianProofs MergeProofs InstProofs EventsProps OrderInstProps.

(** * What is asked for *)
(** the time [t] in another unit, from another origin *)
Definition other_unit (c d t : num) : num := (c * t + d)%num.
(** the Laplacians of the whole time are the same *)
Definition same_laplacians (N N' : net) : Prop := forall g g', is_time_grid (rows N) g -> is_time_grid (rows N') g' ->
  exists ka kb Ls Ls', inst_laplacians N g None None = Some (ka, kb, Ls) /\ inst_laplacians N' g' None None = Some (ka, kb, Ls') /\ length Ls' = length Ls /\
    forall k i j, k < length Ls -> i < num_nodes_of N -> j < num_nodes_of N -> nth k Ls' (fun _ _ => 0%num) i j = nth k Ls (fun _ _ => 0%num) i j.
Definition C216_statement : Prop := forall c d reset srcs tgts starts N, (0 < c)%num -> starts <> [] -> length srcs = length starts -> length tgts = length starts ->
  make_inst_net reset srcs tgts starts = Some N -> ids_ok N = true -> no_self_contact (rows N) ->
  exists N', make_inst_net reset srcs tgts (map (other_unit c d) starts) = Some N' /\ nodes N' = nodes N /\ times (rows N') = map (other_unit c d) (times (rows N)) /\ same_laplacians N N'.

(** ** The times of such a network *)
(** what preserves the order of the times *)
Definition in_order_of (f : num -> num) : Prop := forall a b, (a < b)%num -> (f a < f b)%num.
Lemma unit_order c d : (0 < c)%num -> in_order_of (other_unit c d).
Proof. intros Hc a b H. unfold other_unit. qnra. Qed.
Lemma order_inj f x y : in_order_of f -> f x = f y -> x = y.
Proof. intros Hf E. destruct (Qc_dec x y) as [[H|H]|H]; [apply Hf in H; rewrite E in H; qlra|apply Hf in H; rewrite E in H; qlra|exact H]. Qed.
Lemma sorted_map f l : in_order_of f -> StronglySorted Qclt l -> StronglySorted Qclt (map f l).
Proof.
  intros Hf. induction 1 as [|a l H IH F]; [constructor|]. constructor; [exact IH|]. rewrite Forall_forall in *. intros y Hy. apply in_map_iff in Hy as (x & <- & Hx). now apply Hf, F.
Qed.
Lemma uniq_unit f l : in_order_of f -> uniq_times (map f l) = map f (uniq_times l).
Proof.
  intros Hf. apply qsorted_unique; [apply uniq_times_sorted|apply sorted_map; [exact Hf|apply uniq_times_sorted]|].
  intros x. rewrite uniq_times_in, !in_map_iff. split; intros (y & E & Hy); exists y; (split; [exact E|now apply uniq_times_in]).
Qed.
Lemma sorted_snoc l x : StronglySorted Qclt l -> (forall y, In y l -> (y < x)%num) -> StronglySorted Qclt (l ++ [x]).
Proof.
  induction 1 as [|a l H IH F]; intros Hx; cbn [app]; [repeat constructor|]. constructor; [apply IH; intros y Hy; apply Hx; now right|]. rewrite Forall_forall in *. intros y Hy. apply in_app_or in Hy as [Hy|[<-|[]]]; [now apply F|apply Hx; now left].
Qed.
Lemma uniq_nonempty l : l <> [] -> uniq_times l <> [].
Proof. intros H E. destruct l as [|a l]; [now apply H|]. assert (Q : In a (uniq_times (a :: l))) by (apply uniq_times_in; now left). rewrite E in Q. destruct Q. Qed.
Lemma inst_times reset srcs tgts starts N : starts <> [] -> length srcs = length starts -> length tgts = length starts -> make_inst_net reset srcs tgts starts = Some N ->
  times (rows N) = uniq_times starts ++ [(last (uniq_times starts) 0 + 1)%num].
Proof.
  intros Hne H1 H2 HN. destruct (C45_instantaneous reset srcs tgts starts Hne H1 H2) as (N1 & ends & E & _ & _ & _ & HT & _). rewrite HN in E. injection E as <-.
  assert (HU := uniq_nonempty _ Hne). assert (HM : forall y, In y starts -> (y <= last (uniq_times starts) 0)%num) by (intros y Hy; apply sorted_last_max; [apply uniq_times_sorted|now apply uniq_times_in]).
  assert (HL : In (last (uniq_times starts) 0%num) starts) by (apply uniq_times_in; now apply last_In).
  apply qsorted_unique; [apply times_sorted| |].
  - apply sorted_snoc; [apply uniq_times_sorted|]. intros y Hy. apply uniq_times_in, HM in Hy. qlra.
  - intros x. rewrite HT, in_app_iff, uniq_times_in. split; (intros [Hx|Hx]; [now left|right]).
    + destruct Hx as (m & Hm & Hmax & ->). left. f_equal. apply Qcle_antisym; [now apply Hmax|now apply HM].
    + destruct Hx as [<-|[]]. exists (last (uniq_times starts) 0%num). now repeat split.
Qed.
(** who meets at a time *)
Lemma starting_are reset srcs tgts starts N i j x : starts <> [] -> length srcs = length starts -> length tgts = length starts -> make_inst_net reset srcs tgts starts = Some N ->
  starting (rows N) i j x <-> exists s t, In (s, t, x) (combine (combine srcs tgts) starts) /\ ((s = i /\ t = j) \/ (s = j /\ t = i)).
Proof.
  intros Hne H1 H2 HN. destruct (inst_rows_are _ _ _ _ _ Hne H1 H2 HN) as (_ & _ & _ & R4). split.
  - intros (e & He & HJ & <-). apply R4 in He as (He & _). now exists (e_src e), (e_tgt e).
  - intros (s & t & HI & HJ). destruct (inst_ends starts Hne) as (ends & _ & HF). apply Forall2_left in HF.
    assert (HX : exists v, is_next starts x v).
    { assert (Hx : In x starts) by (exact (in_combine_r _ _ _ _ HI)). clear - HF Hx. revert HF Hx. generalize (is_next starts). intros R HF. induction HF as [|a b l m H HF IH]; [intros []|]. intros [<-|Hx]; [now exists b|auto]. }
    destruct HX as (v & Hv). exists (mkEv s t x v 1%num). split; [apply R4; now repeat split|]. split; [exact HJ|reflexivity].
Qed.
Lemma combine_unit f (T : list (nat * nat)) starts s t x : in_order_of f -> In (s, t, f x) (combine T (map f starts)) <-> In (s, t, x) (combine T starts).
Proof.
  intros Hf. revert starts. induction T as [|q T IH]; intros [|u starts]; cbn [map combine In]; try tauto. rewrite IH. split; (intros [E|E]; [left|now right]).
  - assert (E1 : q = (s, t)) by congruence. assert (E2 : f u = f x) by congruence. apply (order_inj f _ _ Hf) in E2. congruence.
  - congruence.
Qed.

(** * C216 *)
(** only the order of the times matters for the nodes, the Laplacians and all times but the last one *)
Theorem C216_order_partial : forall f reset srcs tgts starts N, in_order_of f -> starts <> [] -> length srcs = length starts -> length tgts = length starts ->
  make_inst_net reset srcs tgts starts = Some N -> ids_ok N = true -> no_self_contact (rows N) ->
  exists N', make_inst_net reset srcs tgts (map f starts) = Some N' /\ nodes N' = nodes N /\ same_laplacians N N' /\
    removelast (times (rows N')) = map f (removelast (times (rows N))) /\
    (* the events of the last time end one unit later, in either unit *)
    exists m, In m starts /\ (forall x, In x starts -> (x <= m)%num) /\ last (times (rows N)) 0%num = (m + 1)%num /\ last (times (rows N')) 0%num = (f m + 1)%num.
Proof.
  intros f reset srcs tgts starts N Hf Hne H1 H2 HN Hids Hself. set (starts' := map f starts).
  assert (Hne' : starts' <> []) by (unfold starts'; destruct starts; [congruence|discriminate]). assert (H1' : length srcs = length starts') by (unfold starts'; now rewrite map_length). assert (H2' : length tgts = length starts') by (unfold starts'; now rewrite map_length).
  destruct (make_inst_net_spec reset srcs tgts starts' Hne' H1' H2') as (N' & _ & _ & _ & HN' & _). exists N'. split; [exact HN'|].
  destruct (inst_rows_are _ _ _ _ _ Hne H1 H2 HN) as (R1 & R2 & R3 & R4). destruct (inst_rows_are _ _ _ _ _ Hne' H1' H2' HN') as (R1' & R2' & R3' & R4').
  pose proof (inst_times _ _ _ _ _ Hne H1 H2 HN) as HT. pose proof (inst_times _ _ _ _ _ Hne' H1' H2' HN') as HT'.
  assert (EU : uniq_times starts' = map f (uniq_times starts)) by now apply uniq_unit.
  assert (HU := uniq_nonempty _ Hne).
  assert (HS : forall i j x, starting (rows N') i j (f x) <-> starting (rows N) i j x).
  { intros i j x. rewrite (starting_are _ _ _ _ _ i j _ Hne H1 H2 HN), (starting_are _ _ _ _ _ i j _ Hne' H1' H2' HN'). split; intros (s & t & HI & HJ); exists s, t; (split; [|exact HJ]); now apply (combine_unit f). }
  (* the pairs of nodes of the events *)
  assert (HP : forall i j, (exists e, In e (map snd (rows N')) /\ joins e i j) <-> (exists e, In e (map snd (rows N)) /\ joins e i j)).
  { intros i j. split; intros (e & He & HJ).
    - apply R4' in He as He'. destruct He' as (HI & _). assert (Hu : In (e_start e) starts') by (exact (in_combine_r _ _ _ _ HI)). apply in_map_iff in Hu as (x & Ex & _).
      destruct (proj1 (HS i j x)) as (e' & He' & HJf & _); [exists e; split; [exact He|]; split; [exact HJ|now symmetry]|]. now exists e'.
    - destruct (proj2 (HS i j (e_start e))) as (e' & He' & HJf & _); [now exists e|]. now exists e'. }
  assert (Hn : nodes N' = nodes N).
  { rewrite R3, R3'. assert (U : forall l m, StronglySorted Peano.lt l -> StronglySorted Peano.lt m -> (forall x : nat, In x l <-> In x m) -> l = m).
    { intros l m Hl. revert m. induction Hl as [|a l Hl IH F]; intros m Hm K.
      - destruct m as [|b m]; [reflexivity|]. exfalso. apply (K b). now left.
      - destruct Hm as [|b m Hm G]; [exfalso; apply (K a); now left|]. rewrite Forall_forall in F, G. assert (a = b).
        { destruct (proj1 (K a) (or_introl eq_refl)) as [->|Ha]; [reflexivity|]. destruct (proj2 (K b) (or_introl eq_refl)) as [->|Hb]; [reflexivity|]. specialize (F b Hb). specialize (G a Ha). lia. }
        subst b. f_equal. apply IH; [exact Hm|]. intros x. split; intros Hx.
        + destruct (proj1 (K x) (or_intror Hx)) as [<-|Hx']; [specialize (F a Hx); lia|exact Hx'].
        + destruct (proj2 (K x) (or_intror Hx)) as [<-|Hx']; [specialize (G a Hx); lia|exact Hx']. }
    apply U; try apply node_array_sorted. intros x. rewrite !node_array_in.
    assert (Q : forall t : table, (exists e, In e (map snd t) /\ (x = e_src e \/ x = e_tgt e)) <-> exists j, exists e, In e (map snd t) /\ joins e x j).
    { intros t. split.
      - intros (e & He & [->| ->]); [exists (e_tgt e)|exists (e_src e)]; exists e; (split; [exact He|]); [left|right]; now split.
      - intros (j & e & He & [[E1 E2]|[E1 E2]]); exists e; (split; [exact He|]); auto. }
    rewrite !Q. split; intros (j & Hj); exists j; now apply HP. }
  assert (Hids' : ids_ok N' = true).
  { rewrite ids_ok_spec in *. unfold num_nodes_of in *. rewrite Hn. intros e He. destruct (proj1 (HP (e_src e) (e_tgt e))) as (e' & He' & HJ); [exists e; split; [exact He|left; now split]|]. specialize (Hids e' He'). destruct HJ as [[<- <-]|[<- <-]]; tauto. }
  assert (Hself' : no_self_contact (rows N')).
  { intros e He E. destruct (proj1 (HP (e_src e) (e_tgt e))) as (e' & He' & HJ); [exists e; split; [exact He|left; now split]|]. apply (Hself e' He'). destruct HJ as [[E1 E2]|[E1 E2]]; congruence. }
  split; [exact Hn|]. split; [|split].
  - intros g g' HG HG'. destruct (inst_laplacians_spec N g None None R1 Hids Hself R2 HG) as (ka & kb & Ls & E & Sa & Sb & HLen & HK).
    destruct (inst_laplacians_spec N' g' None None R1' Hids' Hself' R2' HG') as (ka' & kb' & Ls' & E' & Sa' & Sb' & HLen' & HK').
    cbn [start_index stop_index] in Sa, Sb, Sa', Sb'. subst ka ka'. rewrite HT, app_length in Sb. rewrite HT', app_length, EU, map_length in Sb'. cbn [length] in Sb, Sb'.
    assert (kb' = kb) by lia. subst kb'. exists 0, kb, Ls, Ls'. split; [exact E|]. split; [exact E'|]. split; [lia|]. intros k i j Hk Hi Hj. rewrite HLen in Hk.
    assert (Lk : k < length (uniq_times starts)) by lia. specialize (HK k Hk). specialize (HK' k Hk). cbn [plus] in HK, HK'.
    assert (EK : nth k (times (rows N')) 0%num = f (nth k (times (rows N)) 0%num)).
    { rewrite HT, HT', EU, !app_nth1 by (rewrite ?map_length; exact Lk). rewrite (nth_indep _ 0%num (f 0%num)) by (rewrite map_length; exact Lk). apply map_nth. }
    rewrite EK in HK'. unfold num_nodes_of in HK', Hi, Hj, HK. rewrite Hn in HK'.
    exact (walk_laplacian_unique _ _ _ _ _ HK' HK (fun i j => HS i j _) i j Hi Hj).
  - now rewrite HT, HT', !removelast_last, EU.
  - exists (last (uniq_times starts) 0%num). split; [apply uniq_times_in; now apply last_In|]. split; [intros x Hx; apply sorted_last_max; [apply uniq_times_sorted|now apply uniq_times_in]|].
    rewrite HT, HT', !last_last. split; [reflexivity|]. f_equal. rewrite EU. destruct (exists_last HU) as (l & z & ->). rewrite map_app. cbn [map]. now rewrite !last_last.
Qed.
Theorem C216_unit_partial : forall c d reset srcs tgts starts N, (0 < c)%num -> starts <> [] -> length srcs = length starts -> length tgts = length starts ->
  make_inst_net reset srcs tgts starts = Some N -> ids_ok N = true -> no_self_contact (rows N) ->
  exists N', make_inst_net reset srcs tgts (map (other_unit c d) starts) = Some N' /\ nodes N' = nodes N /\ same_laplacians N N' /\
    removelast (times (rows N')) = map (other_unit c d) (removelast (times (rows N))) /\
    (* the events of the last time end one unit later, in either unit *)
    exists m, In m starts /\ (forall x, In x starts -> (x <= m)%num) /\ last (times (rows N)) 0%num = (m + 1)%num /\ last (times (rows N')) 0%num = (other_unit c d m + 1)%num.
Proof. intros c d reset srcs tgts starts N Hc. apply C216_order_partial. now apply unit_order. Qed.
(** another origin only: everything that is asked for *)
Theorem C216_origin_partial : forall d reset srcs tgts starts N, starts <> [] -> length srcs = length starts -> length tgts = length starts ->
  make_inst_net reset srcs tgts starts = Some N -> ids_ok N = true -> no_self_contact (rows N) ->
  exists N', make_inst_net reset srcs tgts (map (other_unit 1%num d) starts) = Some N' /\ nodes N' = nodes N /\ times (rows N') = map (other_unit 1%num d) (times (rows N)) /\ same_laplacians N N'.
Proof.
  intros d reset srcs tgts starts N Hne H1 H2 HN Hids Hself. destruct (C216_unit_partial 1%num d reset srcs tgts starts N eq_refl Hne H1 H2 HN Hids Hself) as (N' & HN' & Hn & HS & HR & m & _ & _ & M1 & M2).
  exists N'. split; [exact HN'|]. split; [exact Hn|]. split; [|exact HS].
  assert (Hne' : map (other_unit 1%num d) starts <> []) by (destruct starts; [congruence|discriminate]).
  pose proof (inst_times _ _ _ _ _ Hne H1 H2 HN) as HT. pose proof (inst_times reset srcs tgts _ N' Hne' ltac:(now rewrite map_length) ltac:(now rewrite map_length) HN') as HT'.
  rewrite HT, HT' in *. rewrite !removelast_last in HR. rewrite !last_last in M1, M2. rewrite M1, M2, HR, map_app. cbn [map]. do 2 f_equal. unfold other_unit. ring.
Qed.
(** two events, at 0 and 1, in half the unit: the last interval is as long as before *)
Theorem C216_unit_refuted : ~ C216_statement.
Proof.
  intros H. destruct (H (qn 2) 0%num true [0; 1] [1; 2] [qn 0; qn 1] (mkNet [(0, mkEv 0 1 (qn 0) (qn 1) 1%num); (1, mkEv 1 2 (qn 1) (qn 1 + 1)%num 1%num)] [0; 1; 2])) as (N' & HN' & _ & HT & _); try reflexivity; try discriminate.
  { intros e [<-|[<-|[]]]; cbn; lia. }
  assert (E := f_equal (fun o => match o with Some N => qeqb (last (times (rows N)) 0%num) (qn 3) | None => false end) HN'). cbv beta iota in E. rewrite HT in E. vm_compute in E. discriminate E.
Qed.
(** the network of C45 *)
Example C216_applies : make_inst_net true [0; 0; 1] [2; 1; 2] [qn 2; qn 0; qn 0] = Some net45 /\ ids_ok net45 = true /\ no_self_contact (rows net45) /\ length (times (rows net45)) = 3 /\ (0 < qn 2)%num.
Proof. split; [apply C45_applies|]. split; [apply C45_applies|]. split; [apply C45_applies|]. split; vm_compute; reflexivity. Qed.
Print Assumptions C216_order_partial.
Print Assumptions C216_unit_partial.
Print Assumptions C216_origin_partial.
Print Assumptions C216_unit_refuted.
