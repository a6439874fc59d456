(** Property C192, continued: the names of the nodes do not matter for networks of instantaneous events. *)
From Verif Require Import Base LouvainModel EventsModel EventsSpec EventsProofs LaplacianProofs EventsProps TransModel TransSpec MatProofs RenameSpec RenameProofs RenameProps.
Local Open Scope bool_scope.

Section Instants.
Context (n : nat) (s t : nat -> nat) (HR : renaming n s t).
Lemma same_inst e b x y : e_src e < n -> e_tgt e < n -> same_state n s x y -> same_state n s (inst_event e b x) (inst_event (ren_event s e) b y).
Proof using HR.
  intros H1 H2 H. unfold inst_event. cbn [ren_event e_src e_tgt]. rewrite (proj1 H _ _ H1 H2). destruct (b && negb (qeqb (l_A x (e_src e) (e_tgt e)) 1%num)); [|exact H].
  destruct (same_connect n s t HR (e_src e) (e_tgt e) x y H1 H2 H) as [HA HD]. split; [exact HA|]. cbn [l_A l_deg l_S l_D]. intros i Hi. split; [now apply HD|].
  split; (apply (same_set1 n s t HR); [exact H2|now rewrite ?(proj1 (HD _ H2))| |exact Hi]); intros k Hk; (apply (same_set1 n s t HR); [exact H1|now rewrite ?(proj1 (HD _ H1))| |exact Hk]); intros m Hm; now apply HD.
Qed.
Lemma same_inst_rows tb (HB : ids_below n tb) rs : forall x y, same_state n s x y -> both (same_state n s) (inst_rows tb rs x) (inst_rows (ren_table s tb) rs y).
Proof using HR.
  induction rs as [|r rs IH]; intros x y H; [exact H|]. cbn [inst_rows]. rewrite row_by_id_ren. destruct (row_by_id tb (g_id r)) as [e|] eqn:E; [|exact I]. cbn [option_map].
  apply IH. apply row_by_id_in in E. apply HB in E. now apply same_inst.
Qed.
Lemma same_inst_groups tb g (HB : ids_below n tb) ts : both (Forall2 (fun L L' => eqm n L' (renamed t L))) (inst_groups tb g ts) (inst_groups (ren_table s tb) g ts).
Proof using HR.
  induction ts as [|u ts IH]; [constructor|]. cbn [inst_groups]. assert (HX := same_inst_rows tb HB (filter (fun r => qeqb (g_time r) u) g) lstate0 lstate0 (same_lstate0 n s)).
  destruct (inst_rows tb _ lstate0) as [x'|], (inst_rows (ren_table s tb) _ lstate0) as [y'|]; cbn in HX; try contradiction; [|exact I].
  destruct (inst_groups tb g ts), (inst_groups (ren_table s tb) g ts); cbn in IH |- *; try contradiction; [|exact I]. constructor; [now apply (same_laplacian n s t HR)|exact IH].
Qed.
End Instants.

(** * C192: networks of instantaneous events *)
Theorem C192_instantaneous : forall reset srcs tgts starts N s t, make_inst_net reset srcs tgts starts = Some N -> ids_ok N = true -> renaming (num_nodes_of N) s t ->
  exists N', make_inst_net reset (map s srcs) (map s tgts) starts = Some N' /\ num_nodes_of N' = num_nodes_of N /\ ids_ok N' = true /\ times (rows N') = times (rows N) /\
    forall g, is_time_grid (rows N) g -> is_time_grid (rows N') g /\ forall a b,
      match inst_laplacians N g a b, inst_laplacians N' g a b with
      | Some (ka, kb, Ls), Some (ka', kb', Ls') => ka' = ka /\ kb' = kb /\ Forall2 (fun A A' => eqm (num_nodes_of N) A' (renamed t A)) Ls Ls'
      | None, None => True
      | _, _ => False
      end.
Proof.
  intros reset srcs tgts starts N s t HN Hok HR. unfold make_inst_net in *. destruct (inst_ending_times starts) as [ends|]; [|discriminate HN]. unfold make_net in *. rewrite (build_ren s). destruct (build_table reset srcs tgts starts ends) as [tb|] eqn:EB; [|discriminate HN]. cbn [rows nodes] in HN.
  set (one := fun r : nat * event => (fst r, mkEv (e_src (snd r)) (e_tgt (snd r)) (e_start (snd r)) (e_end (snd r)) 1%num)) in *. injection HN as <-. cbn [option_map rows nodes]. eexists. split; [reflexivity|].
  unfold num_nodes_of in *. cbn [nodes rows] in *. set (n := length (node_array tb)) in *.
  assert (EO : map one (ren_table s tb) = ren_table s (map one tb)) by (unfold ren_table; rewrite !map_map; apply map_ext; intros r; reflexivity). rewrite EO.
  assert (HB' : ids_below n (map one tb)) by (intros e He; exact (proj1 (ids_ok_spec _) Hok e He)).
  assert (HB : ids_below n tb). { intros e He. apply in_map_iff in He. destruct He as (r & <- & Hr). exact (HB' (snd (one r)) (in_map snd _ _ (in_map one _ _ Hr))). }
  assert (HL : length (node_array (ren_table s tb)) = n) by (apply (nodes_ren n s t HR); [reflexivity|exact HB]). split; [exact HL|].
  assert (Hok' : ids_ok (mkNet (ren_table s (map one tb)) (node_array (ren_table s tb))) = true).
  { apply ids_ok_spec. unfold num_nodes_of. cbn [nodes rows]. rewrite HL. intros e He. rewrite snd_ren in He. apply in_map_iff in He. destruct He as (f & <- & Hf). apply HB' in Hf. cbn. split; now apply HR. }
  split; [exact Hok'|]. split; [apply times_ren|]. intros g [G1 G2]. split; [split; [now rewrite grid_rows_ren|exact G2]|]. intros a b. unfold inst_laplacians. rewrite Hok, Hok'. cbn [rows]. rewrite times_ren.
  destruct (window (times (map one tb)) a b) as [[[ta ka] [tb' kb]]|]; [|exact I].
  assert (HX := same_inst_groups n s t HR (map one tb) g HB' (filter (fun u => qleb ta u && qltb u tb') (times (map one tb)))).
  destruct (inst_groups (map one tb) g _), (inst_groups (ren_table s (map one tb)) g _); cbn in HX; try contradiction; [|exact I]. now split.
Qed.
(** three nodes, two of whose pairs meet at once and one later *)
Example C192_instantaneous_applies : exists N, make_inst_net true [0; 1; 0] [1; 2; 2] [qn 0; qn 0; qn 2] = Some N /\ ids_ok N = true /\ num_nodes_of N = 3 /\ renaming 3 s192 t192 /\ is_time_grid (rows N) (sorted_grid (rows N)) /\
  match inst_laplacians N (sorted_grid (rows N)) None None with Some (ka, kb, Ls) => (kb - ka, length Ls) | None => (0, 0) end = (2, 2).
Proof.
  eexists. split; [reflexivity|]. split; [reflexivity|]. split; [reflexivity|]. split; [exact (proj1 C192_applies)|]. split; [apply grid_exists|]. vm_compute. reflexivity.
Qed.
Print Assumptions C192_instantaneous.
