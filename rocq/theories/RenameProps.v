(** C192: the names and the numbers of the nodes do not matter. *)
From Verif Require Import Base PartitionModel PartitionSpec PartitionProofs LouvainModel LouvainSpec LouvainProofs LouvainProps SparseModel EventsModel EventsSpec EventsProofs EventsProps LaplacianProofs
  TransModel TransSpec MatProofs TransProofs TransProps FlowModel FlowSpec FlowProofs FlowGridProofs FlowProps PipeModel PipeSpec PipeProofs PipeProps UnitProps RenameSpec RenameProofs.

(** * C192 *)
(** labels: other labels, sorted in another way, give the nodes other numbers, which are those of a renaming *)
Theorem C192_labels : forall (L L' : Type) (leb : L -> L -> bool) (leb' : L' -> L' -> bool) (h : L -> L') srcs tgts a b ls,
  total_order leb -> total_order leb' -> (forall x y, In x (srcs ++ tgts) -> In y (srcs ++ tgts) -> h x = h y -> x = y) ->
  relabel leb srcs tgts = Some (a, b, ls) ->
  exists s t ls', relabel leb' (map h srcs) (map h tgts) = Some (map s a, map s b, ls') /\ length ls' = length ls /\ renaming (length ls) s t /\
    forall i, i < length ls -> node_to_label ls' (s i) = option_map h (node_to_label ls i).
Proof.
  intros L L' leb leb' h srcs tgts a b ls HO HO' Hh HRl.
  destruct (relabel_spec leb HO srcs tgts) as (a0 & b0 & ls0 & E0 & Ea & Eb & Hr & Hm). rewrite HRl in E0. injection E0 as <- <- <-.
  destruct (relabel_spec leb' HO' (map h srcs) (map h tgts)) as (a' & b' & ls' & E' & Ea' & Eb' & Hr' & Hm').
  assert (HN : NoDup ls). { apply NoDup_nth_error. intros i j Hi E. destruct (nth_error ls i) as [x|] eqn:Ei; [|apply nth_error_None in Ei; lia]. symmetry in E.
    destruct (Nat.lt_trichotomy i j) as [H|[H|H]]; [|exact H|]; [apply (Hm i j x x Ei E) in H|apply (Hm j i x x E Ei) in H]; now destruct H. }
  assert (HN' : NoDup ls'). { apply NoDup_nth_error. intros i j Hi E. destruct (nth_error ls' i) as [x|] eqn:Ei; [|apply nth_error_None in Ei; lia]. symmetry in E.
    destruct (Nat.lt_trichotomy i j) as [H|[H|H]]; [|exact H|]; [apply (Hm' i j x x Ei E) in H|apply (Hm' j i x x E Ei) in H]; now destruct H. }
  assert (EL : map (node_to_label ls) (a ++ b) = map Some (srcs ++ tgts)) by now rewrite !map_app, Ea, Eb.
  assert (EL' : map (node_to_label ls') (a' ++ b') = map Some (map h (srcs ++ tgts))) by now rewrite !map_app, Ea', Eb'.
  assert (Hin : forall x, In x ls <-> In x (srcs ++ tgts)).
  { intros x. split.
    - intros Hx. apply In_nth_error in Hx. destruct Hx as [i Hi]. assert (Hl : i < length ls) by (apply nth_error_Some; congruence). apply Hr in Hl. apply (in_map (node_to_label ls)) in Hl. rewrite EL in Hl. unfold node_to_label in Hl. rewrite Hi in Hl. apply in_map_iff in Hl. destruct Hl as (y & [= ->] & Hy). exact Hy.
    - intros Hx. apply (in_map Some) in Hx. rewrite <- EL in Hx. apply in_map_iff in Hx. destruct Hx as (i & Hi & _). now apply nth_error_In in Hi. }
  assert (Hin' : forall x, In x ls' <-> In x (map h (srcs ++ tgts))).
  { intros x. split.
    - intros Hx. apply In_nth_error in Hx. destruct Hx as [i Hi]. assert (Hl : i < length ls') by (apply nth_error_Some; congruence). apply Hr' in Hl. apply (in_map (node_to_label ls')) in Hl. rewrite EL' in Hl. unfold node_to_label in Hl. rewrite Hi in Hl. apply in_map_iff in Hl. destruct Hl as (y & [= ->] & Hy). exact Hy.
    - intros Hx. apply (in_map Some) in Hx. rewrite <- EL' in Hx. apply in_map_iff in Hx. destruct Hx as (i & Hi & _). now apply nth_error_In in Hi. }
  assert (HM : NoDup (map h ls)) by (apply NoDup_map_inj_in; [|exact HN]; intros x y Hx Hy; apply Hh; now apply Hin).
  assert (HLen : length ls' = length ls).
  { rewrite <- (map_length h ls). apply Nat.le_antisymm; apply NoDup_incl_length; try assumption; intros x Hx.
    - apply Hin' in Hx. apply in_map_iff in Hx. destruct Hx as (y & <- & Hy). apply in_map. now apply Hin.
    - apply in_map_iff in Hx. destruct Hx as (y & <- & Hy). apply Hin'. apply in_map. now apply Hin. }
  set (s := fun i => match nth_error ls i with Some x => match label_to_node leb' ls' (h x) with Some j => j | None => 0 end | None => 0 end).
  assert (Hs : forall i, i < length ls -> node_to_label ls' (s i) = option_map h (node_to_label ls i)).
  { intros i Hi. unfold s, node_to_label. destruct (nth_error ls i) as [x|] eqn:Ei; [|apply nth_error_None in Ei; lia]. cbn [option_map].
    assert (Hx : In (h x) ls') by (apply Hin'; apply in_map; apply Hin; now apply nth_error_In in Ei). apply In_nth_error in Hx. destruct Hx as [j Hj].
    rewrite (proj2 (label_to_node_spec leb' HO' ls' (h x) j HN') Hj). exact Hj. }
  assert (Hlt : forall i, i < length ls -> s i < length ls).
  { intros i Hi. rewrite <- HLen. apply nth_error_Some. change (nth_error ls' (s i)) with (node_to_label ls' (s i)). rewrite (Hs i Hi). unfold node_to_label. destruct (nth_error ls i) eqn:Ei; [discriminate|]. apply nth_error_None in Ei. lia. }
  assert (Hinj : forall i j, i < length ls -> j < length ls -> s i = s j -> i = j).
  { intros i j Hi Hj E. assert (Qi := Hs i Hi). assert (Qj := Hs j Hj). rewrite <- E, Qi in Qj. unfold node_to_label in Qj.
    destruct (nth_error ls i) as [x|] eqn:Ei; [|apply nth_error_None in Ei; lia]. destruct (nth_error ls j) as [y|] eqn:Ej; [|apply nth_error_None in Ej; lia].
    assert (EX : h x = h y) by (cbn in Qj; congruence). apply Hh in EX; [|apply Hin; now apply nth_error_In in Ei|apply Hin; now apply nth_error_In in Ej]. subst y. apply (NoDup_nth_error ls); [exact HN|exact Hi|congruence]. }
  destruct (renaming_exists (length ls) s Hlt Hinj) as [t Ht]. exists s, t, ls'.
  assert (HE : forall l u u', (forall i, In i u -> i < length ls) -> map (node_to_label ls) u = map Some l -> map (node_to_label ls') u' = map Some (map h l) -> u' = map s u).
  { intros l u. revert l. induction u as [|i u IH]; intros [|x l] [|k u'] HU H1 H2; try discriminate; [reflexivity|]. cbn [map] in *. injection H1 as H1 H1'. injection H2 as H2 H2'. f_equal.
    - assert (Q := Hs i (HU i (or_introl eq_refl))). rewrite H1 in Q. cbn in Q. unfold node_to_label in Q, H2. apply (NoDup_nth_error ls'); [exact HN'|apply nth_error_Some; congruence|congruence].
    - apply (IH l); [intros m Hm0; apply HU; now right|assumption|assumption]. }
  assert (HA : a' = map s a) by (apply (HE srcs); [intros i Hi; apply Hr; apply in_or_app; now left|exact Ea|exact Ea']).
  assert (HB : b' = map s b) by (apply (HE tgts); [intros i Hi; apply Hr; apply in_or_app; now right|exact Eb|exact Eb']).
  subst a' b'. split; [exact E'|]. split; [exact HLen|]. split; [exact Ht|exact Hs].
Qed.
(** networks: the Laplacians are those of the other numbers, for every window *)
Theorem C192_network : forall fuel reset srcs tgts starts ends N s t, make_net fuel reset false srcs tgts starts ends = Some N -> ids_ok N = true -> renaming (num_nodes_of N) s t ->
  exists N', make_net fuel reset false (map s srcs) (map s tgts) starts ends = Some N' /\ num_nodes_of N' = num_nodes_of N /\ ids_ok N' = true /\ times (rows N') = times (rows N) /\
    forall g, is_time_grid (rows N) g -> is_time_grid (rows N') g /\ forall a b,
      match compute_laplacians N g a b, compute_laplacians N' g a b with
      | Some (ka, kb, Ls), Some (ka', kb', Ls') => ka' = ka /\ kb' = kb /\ Forall2 (fun A A' => eqm (num_nodes_of N) A' (renamed t A)) Ls Ls'
      | None, None => True
      | _, _ => False
      end.
Proof.
  intros fuel reset srcs tgts starts ends N s t HN Hok HR. unfold make_net in *. rewrite (build_ren s). destruct (build_table reset srcs tgts starts ends) as [tb|] eqn:EB; [|discriminate]. injection HN as <-.
  cbn [option_map]. eexists. split; [reflexivity|]. unfold num_nodes_of in *. cbn [nodes rows] in *. set (n := length (node_array tb)) in *.
  assert (HB : ids_below n tb) by (intros e He; exact (proj1 (ids_ok_spec _) Hok e He)).
  assert (HL : length (node_array (ren_table s tb)) = n) by (apply (nodes_ren n s t HR); [reflexivity|exact HB]).
  split; [exact HL|]. split.
  { apply ids_ok_spec. unfold num_nodes_of. cbn [nodes rows]. rewrite HL. intros e He. rewrite snd_ren in He. apply in_map_iff in He. destruct He as (f & <- & Hf). apply HB in Hf. cbn. split; now apply HR. }
  split; [apply times_ren|]. intros g [G1 G2]. split; [split; [now rewrite grid_rows_ren|exact G2]|]. intros a b.
  assert (HX := same_laplacians n s t HR (mkNet tb (node_array tb)) (mkNet (ren_table s tb) (node_array (ren_table s tb))) g a b eq_refl HL eq_refl Hok).
  destruct (compute_laplacians (mkNet tb (node_array tb)) g a b) as [[[ka kb] Ls]|], (compute_laplacians (mkNet (ren_table s tb) (node_array (ren_table s tb))) g a b) as [[[ka' kb'] Ls']|]; cbn in HX; try contradiction; [|exact I].
  destruct HX as [HX HF]. injection HX as -> ->. now split.
Qed.
(** flows: the integrals are those of the other numbers *)
Theorem C192_flow : forall n kd l l' p p' tl g r rtol F s t, renaming n s t -> exact kd rtol -> distribution_ok n p -> times_ok tl -> tl <> Some [] -> (forall B, In B l -> stochastic n B) ->
  Forall2 (fun A A' => eqm n A' (renamed t A)) l l' -> match p, p' with Some p, Some p' => forall i, i < n -> p' i = p (t i) | None, None => True | _, _ => False end ->
  flow_integral n kd None (Some l) p tl g r rtol = Some F ->
  exists F', flow_integral n kd None (Some l') p' tl g r rtol = Some F' /\ f_times F' = f_times F /\ f_t F' = f_t F /\ Forall2 (fun A A' => eqm n A' (renamed t A)) (f_I F) (f_I F').
Proof.
  intros n kd l l' p p' tl g r rtol F s t HR He Hp Ht Htl HS HF HP HI.
  assert (HLen : length l' = length l) by (clear - HF; induction HF; cbn; congruence).
  assert (HS' : forall B, In B l' -> stochastic n B).
  { clear - HR HS HF. induction HF as [|A A' l l' HA HF IH]; intros B []; [subst B|now apply IH; [intros C HC; apply HS; now right|]].
    apply (stochastic_ext n (renamed t A)); [now apply eqm_sym|]. apply (renamed_stochastic n s t HR). apply HS. now left. }
  assert (Hp' : distribution_ok n p').
  { destruct p as [p|], p' as [p'|]; try contradiction; [|exact Hp]. destruct Hp as [H1 H2]. split; [intros i Hi; rewrite HP by assumption; apply H1; now apply HR|].
    rewrite <- H2, <- (sumN_renamed n s t HR p). now apply sumN_ext. }
  assert (Hpd : forall i, i < n -> the_distribution n p' i = the_distribution n p (t i)) by (intros i Hi; destruct p as [p|], p' as [p'|]; try contradiction; [now apply HP|reflexivity]).
  assert (HA : all_stochastic n None (Some l)) by exact HS. assert (HA' : all_stochastic n None (Some l')) by exact HS'.
  destruct (flow_stored _ _ _ _ _ _ _ _ _ _ HA HI) as (Ts & kg & tg & ES & HL & Hne & EG & _ & E2 & E3 & _ & EI).
  assert (Hne' : l' <> []). { intros ->. destruct l; [|discriminate HLen]. destruct (flow_integral_some _ _ _ _ _ _ _ _ _ _ HI) as (Ts0 & _ & _ & ES0 & Hn & _). rewrite ES in ES0. injection ES0 as <-. destruct Ts; [congruence|]. cbn in HL. lia. }
  destruct (C46_computed n kd None (Some l') p' tl g r rtol) as [F' HI']; [exact Hne'|exact Ht|exact Htl|]. exists F'. split; [exact HI'|].
  destruct (flow_stored _ _ _ _ _ _ _ _ _ _ HA' HI') as (Ts' & kg' & tg' & ES' & HL' & _ & EG' & _ & E2' & E3' & _ & EI').
  assert (ET : flow_times None (Some l') tl r = flow_times None (Some l) tl r) by (unfold flow_times; cbn [given]; now rewrite HLen).
  assert (EN : steps_in None (Some l') tl = steps_in None (Some l) tl) by (unfold steps_in; cbn [given]; now rewrite HLen).
  rewrite ET, EG in EG'. injection EG' as <- <-. split; [congruence|]. split; [congruence|]. rewrite EI, EI', EN.
  assert (HK : forall m, In m (stored kg 0 (steps_in None (Some l) tl)) -> 0 < m <= steps_in None (Some l) tl) by (intros m Hm; apply stored_in in Hm; lia).
  revert HK. generalize (stored kg 0 (steps_in None (Some l) tl)). intros ms. induction ms as [|m ms IH]; intros HK; cbn [map]; constructor; [|apply IH; intros m' Hm'; apply HK; now right].
  destruct (HK m (or_introl eq_refl)) as [H0 Hm].
  eapply eqm_trans; [apply (integral_at_average n kd None (Some l') p' tl r rtol Ts' m); try assumption; lia|].
  eapply eqm_trans; [|apply (renamed_ext n s t HR); apply eqm_sym; apply (integral_at_average n kd None (Some l) p tl r rtol Ts m); assumption].
  unfold flow_average. rewrite ET. apply (renamed_average n s t HR); [exact Hpd|]. intros k Hk. unfold flow_transition, transition. cbn [given].
  apply (renamed_chain n s t HR). apply Forall2_firstn. unfold in_order. destruct r; [now apply Forall2_rev'|exact HF].
Qed.
(** partitions: the same clusters of the same nodes are as stable as before *)
Theorem C192_stability : forall A p q s t, valid p -> valid q -> num_nodes q = num_nodes p -> renaming (num_nodes p) s t ->
  (forall x y, x < num_nodes p -> y < num_nodes p -> (together q (s x) (s y) <-> together p x y)) -> compute_stability (renamed t A) q = compute_stability A p.
Proof.
  intros A p q s t Hp Hq Hn HR H. rewrite (C13_stability_is_pair_sum (renamed t A) q Hq), (C13_stability_is_pair_sum A p Hp).
  exact (renamed_stability (num_nodes p) s t HR A p q eq_refl Hn H).
Qed.
(** the whole analysis, for exponentials of matrices to which the numbers of the nodes do not matter: the matrices that are clustered are those of the other numbers *)
Theorem C192_analysis : forall fuel reset srcs tgts starts ends N s t g E P k q q' l dir,
  make_net fuel reset false srcs tgts starts ends = Some N -> rows N <> [] -> ids_ok N = true -> no_self_contact (rows N) -> is_time_grid (rows N) g -> renaming (num_nodes_of N) s t ->
  expm_ok (num_nodes_of N) E -> (forall x A A', eqm (num_nodes_of N) A' (renamed t A) -> eqm (num_nodes_of N) (E x A') (renamed t (E x A))) ->
  2 <= length (times (rows N)) -> no_scale_keywords k -> fits (num_nodes_of N) (k_p1 q) = true -> fits (num_nodes_of N) (k_p1 q') = true ->
  distribution_ok (num_nodes_of N) (given_density (k_p1 q)) -> k_grid q = None -> k_grid q' = None ->
  match k_p1 q, k_p1 q' with Some p, Some p' => forall i, i < num_nodes_of N -> nth i p' 0%num = nth (t i) p 0%num | None, None => True | _, _ => False end ->
  Forall usable l -> ~ In None l ->
  exists N' A A', make_net fuel reset false (map s srcs) (map s tgts) starts ends = Some N' /\
    analysis (num_nodes_of N) (times (rows N)) (compute_laplacians N g) E P k q l dir (one_each dir l A) /\
    analysis (num_nodes_of N') (times (rows N')) (compute_laplacians N' g) E P k q' l dir (one_each dir l A') /\
    forall w rev, In (Some w) l -> wanted dir rev = true -> eqm (num_nodes_of N) (A' (Some w) rev) (renamed t (A (Some w) rev)).
Proof.
  intros fuel reset srcs tgts starts ends N s t g E P k q q' l dir HN Hne Hids Hself HG HR HE HEq H2 Hk Hf Hf' Hp Hg Hg' Hpp Hu Hnone.
  destruct (C192_network _ _ _ _ _ _ N s t HN Hids HR) as (N' & HN' & EV & Hids' & ET & HX). destruct (HX g HG) as [HG' HLap]. exists N'.
  assert (ER : rows N' = ren_table s (rows N)). { unfold make_net in HN, HN'. rewrite (build_ren s) in HN'. destruct (build_table reset srcs tgts starts ends); [|discriminate]. injection HN as <-. now injection HN' as <-. }
  assert (Hne' : rows N' <> []) by (rewrite ER; unfold ren_table; destruct (rows N); [congruence|discriminate]).
  assert (Hself' : no_self_contact (rows N')).
  { rewrite ER. intros e He. rewrite snd_ren in He. apply in_map_iff in He. destruct He as (f & <- & Hf0). cbn. intros E0. apply (Hself f Hf0).
    destruct (proj1 (ids_ok_spec N) Hids f Hf0) as [B1 B2]. now apply (s_inj (num_nodes_of N) s t HR). }
  destruct (C39_network_laplacians _ _ _ _ _ _ N g HN Hne Hids Hself HG) as [HL HS]. destruct (C39_network_laplacians _ _ _ _ _ _ N' g HN' Hne' Hids' Hself' HG') as [HL' HS'].
  destruct (C152_network_whole _ _ _ _ _ _ N g HN Hne Hids Hself HG) as [Ls HW]. destruct (C152_network_whole _ _ _ _ _ _ N' g HN' Hne' Hids' Hself' HG') as [Ls' HW'].
  assert (HLs : Forall2 (fun A A' => eqm (num_nodes_of N) A' (renamed t A)) Ls Ls').
  { assert (Q := HLap None None). unfold whole_time in HW, HW'. rewrite HW, HW' in Q. now destruct Q as (_ & _ & Q). }
  assert (H2' : 2 <= length (times (rows N'))) by now rewrite ET.
  destruct (C152_analysis_partial _ _ _ E P Ls k q l dir HL HS HE HW H2 Hk Hf Hp Hg Hu Hnone) as (s1 & s2 & s3 & A & A1 & A2 & A3 & A4 & A5).
  assert (Hp' : distribution_ok (num_nodes_of N) (given_density (k_p1 q'))).
  { destruct (k_p1 q) as [p|], (k_p1 q') as [p'|]; try contradiction; [|exact Hp]. cbn in Hp |- *. destruct Hp as [P1 P2]. split; [intros i Hi; rewrite Hpp by assumption; apply P1; now apply HR|].
    rewrite <- P2, <- (sumN_renamed (num_nodes_of N) s t HR (fun i => nth i p 0%num)). apply sumN_ext. intros i Hi. now apply Hpp. }
  rewrite <- EV in HE, Hf', Hp'.
  destruct (C152_analysis_partial _ _ _ E P Ls' k q' l dir HL' HS' HE HW' H2' Hk Hf' Hp' Hg' Hu Hnone) as (s1' & s2' & s3' & A' & A1' & A2' & A3' & A4' & A5').
  exists A, A'. split; [exact HN'|]. split; [now exists s1, s2, s3|]. split; [now exists s1', s2', s3'|]. intros w rev Hw Hd.
  destruct (A5 w rev Hw Hd) as (M & HM & EA). destruct (A5' w rev Hw Hd) as (M' & HM' & EA'). rewrite EV in HM', EA'. rewrite ET in HM', EA'.
  eapply eqm_trans; [exact EA'|]. eapply eqm_trans; [|apply (renamed_ext _ s t HR), eqm_sym, EA].
  destruct (proj2 HM ltac:(lia)) as [HLM HK]. destruct (proj2 HM' ltac:(lia)) as [HLM' HK'].
  assert (HMM : Forall2 (fun A A' => eqm (num_nodes_of N) A' (renamed t A)) M M').
  { assert (HP : forall j, j < length M -> eqm (num_nodes_of N) (nth j M' ident) (renamed t (nth j M ident))).
    { intros j Hj. eapply eqm_trans; [apply HK'; lia|]. eapply eqm_trans; [|apply (renamed_ext _ s t HR), eqm_sym, HK; lia]. apply HEq.
      clear - HLs HR. revert j. induction HLs as [|B B' Ls Ls' HB HLs IH]; intros [|j]; cbn; [apply (renamed_ident _ s t HR)|apply (renamed_ident _ s t HR)|exact HB|apply IH]. }
    assert (HLL : length M' = length M) by lia. clear - HP HLL. revert M' HLL HP. induction M as [|B M IH]; intros [|B' M'] HLL HP; try discriminate HLL; constructor; [apply (HP 0); cbn; lia|].
    apply IH; [now injection HLL|]. intros j Hj. apply (HP (S j)). cbn. lia. }
  unfold flow_average. change (flow_times None (Some M') (Some (times (rows N))) rev) with (flow_times None (Some M) (Some (times (rows N))) rev).
  apply (renamed_average _ s t HR).
  - intros i Hi. destruct (k_p1 q) as [p|], (k_p1 q') as [p'|]; try contradiction; [now apply Hpp|reflexivity].
  - intros j Hj. unfold flow_transition, transition. cbn [given]. apply (renamed_chain _ s t HR). apply Forall2_firstn. unfold in_order. destruct rev; [now apply Forall2_rev'|exact HMM].
Qed.
(** three nodes, numbered in another way *)
Definition s192 (i : nat) : nat := match i with 0 => 2 | 1 => 0 | _ => 1 end.
Definition t192 (i : nat) : nat := match i with 0 => 1 | 1 => 2 | _ => 0 end.
Example C192_applies : renaming 3 s192 t192 /\ num_nodes_of net39 = 3 /\ ids_ok net39 = true /\
  make_net 0 true false (map s192 [0; 1]) (map s192 [1; 2]) [qn 0; qn 1] [qn 1; qn 3] <> None /\ map s192 [0; 1] = [2; 0] /\
  (forall x A A', eqm 3 A' (renamed t192 A) -> eqm 3 (Estep x A') (renamed t192 (Estep x A))) /\
  relabel Nat.leb [40; 7] [7; 12] = Some ([2; 0], [0; 1], [7; 12; 40]) /\ relabel Nat.leb (map (fun x => 50 - x) [40; 7]) (map (fun x => 50 - x) [7; 12]) = Some ([0; 2], [2; 1], [10; 38; 43]) /\
  let p := part_of_list 3 [[0; 1]; [2]] in let q := part_of_list 3 [[1]; [0; 2]] in
  valid p /\ valid q /\ (forall x y, x < 3 -> y < 3 -> (together q (s192 x) (s192 y) <-> together p x y)) /\ compute_stability S3 p <> 0%num.
Proof.
  split. { split; intros i Hi; (do 3 (destruct i as [|i]; [cbn; lia|])); lia. }
  split; [vm_compute; reflexivity|]. split; [reflexivity|]. split; [vm_compute; discriminate|]. split; [reflexivity|].
  split. { intros x A A' H i j Hi Hj. unfold Estep, renamed, mminus, mscal. rewrite H by assumption. unfold renamed.
    replace (ident i j) with (ident (t192 i) (t192 j)); [reflexivity|]. do 3 (destruct i as [|i]; [do 3 (destruct j as [|j]; [reflexivity|]); lia|]). lia. }
  split; [reflexivity|]. split; [reflexivity|]. split; [apply of_list_valid, partitionsb_sound; reflexivity|]. split; [apply of_list_valid, partitionsb_sound; reflexivity|]. split.
  - intros x y Hx Hy. rewrite <- !sameb_together. do 3 (destruct x as [|x]; [do 3 (destruct y as [|y]; [cbn; tauto|]); lia|]). lia.
  - intros E. vm_compute in E. discriminate E.
Qed.
Print Assumptions C192_labels.
Print Assumptions C192_network.
Print Assumptions C192_flow.
Print Assumptions C192_stability.
Print Assumptions C192_analysis.
