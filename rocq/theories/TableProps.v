(** Networks made from tables of events: properties C174-C178. *)
From Verif Require Import Base PartitionModel LouvainModel EventsModel EventsSpec EventsProofs LaplacianProofs MergeProofs InstProofs EventsProps TableModel TableSpec TableProofs.

(** * C174: node labels of a table *)
Definition C174_statement : Prop := forall fuel f N, net_of_frame fuel false f = Some N ->
  nodes N = seq 0 (length (frame_labels f)) /\
  map (fun r => (node_to_label (frame_labels f) (e_src (snd r)), node_to_label (frame_labels f) (e_tgt (snd r)), e_start (snd r), e_end (snd r))) (rows N) =
  map (fun r => (Some (f_src r), Some (f_tgt r), f_start r, f_end r)) f.
(** labels 5 and 7 stay node ids of a network of two nodes *)
Theorem C174_labels_refuted : ~ C174_statement.
Proof. intros H. destruct (H 0 [(0, (5, 7, qn 0, qn 1))] _ eq_refl) as [H1 _]. vm_compute in H1. discriminate H1. Qed.
(** a table labelled 0, 1, ... gives the network that its columns give as lists *)
Theorem C174_numbered_partial : forall fuel f n N, labels_are n f -> net_of_frame fuel false f = Some N ->
  nodes N = seq 0 n /\ ids_ok N = true /\ frame_labels f = seq 0 n /\
  map (fun r => (node_to_label (frame_labels f) (e_src (snd r)), node_to_label (frame_labels f) (e_tgt (snd r)), e_start (snd r), e_end (snd r))) (rows N) =
  map (fun r => (Some (f_src r), Some (f_tgt r), f_start r, f_end r)) f /\
  (forall i j u, contact (rows N) i j u <-> row_contact f i j u) /\
  exists M, make_net fuel true false (col_sources f) (col_targets f) (col_starts f) (col_ends f) = Some M /\
    nodes M = nodes N /\ Permutation (map snd (rows M)) (map snd (rows N)) /\ times (rows M) = times (rows N) /\
    start_time M = start_time N /\ end_time M = end_time N /\
    (forall i j u, contact (rows M) i j u <-> contact (rows N) i j u) /\
    forall s u, exists A B, static_adjacency M s u = Some A /\ static_adjacency N s u = Some B /\ forall i j, A i j = B i j.
Proof.
  intros fuel f n N HL HN. rewrite frame_net in HN. injection HN as <-. cbn [rows nodes].
  assert (EL : frame_labels f = seq 0 n).
  { apply sorted_range.
    - assert (K : forall l, StronglySorted (lt Nat.leb) l -> StronglySorted Nat.lt l).
      { induction 1 as [|x l H IH F]; constructor; [assumption|]. rewrite Forall_forall in *. intros y Hy. destruct (F y Hy) as [F1 F2]. apply Nat.leb_le in F1. unfold Nat.lt. lia. }
      apply K. apply sorted_labels_sorted. exact leb_total_order.
    - intros x. unfold frame_labels. rewrite (sorted_labels_in Nat.leb leb_total_order). apply HL. }
  split; [now apply wd_nodes|]. split; [now apply (wd_ids f n)|]. split; [assumption|]. split.
  { rewrite EL. unfold with_durations. rewrite map_map. apply map_ext_in. intros r Hr. cbn [snd e_src e_tgt e_start e_end].
    assert (K : forall x, x < n -> node_to_label (seq 0 n) x = Some x).
    { intros x Hx. unfold node_to_label. rewrite (nth_error_nth' _ 0) by now rewrite seq_length. now rewrite seq_nth. }
    rewrite !K; [reflexivity| |]; apply HL, in_or_app; [right; now apply (in_map f_tgt)|left; now apply (in_map f_src)]. }
  split; [intros; apply wd_contact|].
  destruct (lists_net fuel f) as (t & E & HP). exists (mkNet t (node_array t)). split; [exact E|]. cbn [rows nodes].
  assert (HE : forall e, In e (map snd t) <-> In e (map snd (with_durations f))) by (intros e; split; apply Permutation_in; [assumption|now apply Permutation_sym]).
  pose proof (node_array_ext _ _ HE) as EN. split; [assumption|]. split; [assumption|]. split; [now apply times_ext|].
  split; [now apply start_perm|]. split; [now apply end_perm|]. split; [now apply contact_ext|].
  intros s u. pose proof (static_perm (mkNet t (node_array t)) (mkNet (with_durations f) (node_array (with_durations f))) s u HP) as K. cbv zeta in K.
  specialize (K ltac:(unfold num_nodes_of; cbn [nodes]; now rewrite EN)). pose proof (wd_ids f n HL) as Hids.
  destruct (static_adjacency (mkNet t (node_array t)) s u) as [A|].
  - destruct (static_adjacency (mkNet (with_durations f) (node_array (with_durations f))) s u) as [B|]; [|contradiction]. exists A, B. auto.
  - exfalso. unfold static_adjacency in K. rewrite Hids in K. exact K.
Qed.
(** with any other labels nothing can be computed: merging, static matrices and Laplacians raise *)
Theorem C174_other_labels : forall f, (exists n, labels_are n f) \/
  (forall fuel N, net_of_frame fuel true f = None /\
    (net_of_frame fuel false f = Some N -> (forall s u, static_adjacency N s u = None) /\ forall g a b, compute_laplacians N g a b = None)).
Proof.
  intros f. set (N0 := mkNet (with_durations f) (node_array (with_durations f))). destruct (ids_ok N0) eqn:E.
  - left. exists (num_nodes_of N0). rewrite ids_ok_spec in E.
    assert (H1 : forall x, In x (node_array (with_durations f)) -> x < num_nodes_of N0).
    { intros x Hx. apply node_array_in in Hx as (e & He & Hx). destruct (E e He). destruct Hx as [-> | ->]; assumption. }
    assert (HN : NoDup (node_array (with_durations f))).
    { generalize (node_array_sorted (with_durations f)). clear. induction 1 as [|x l H IH F]; constructor; [|assumption]. intros Hx. rewrite Forall_forall in F. specialize (F x Hx). unfold Nat.lt in F. lia. }
    intros x. rewrite <- wd_nodes_in. split; [apply H1|]. intros Hx. apply (NoDup_length_incl HN (l' := seq 0 (num_nodes_of N0))).
    + rewrite seq_length. reflexivity.
    + intros y Hy. apply in_seq. specialize (H1 y Hy). lia.
    + apply in_seq. lia.
  - right. assert (HS : forall s u, static_adjacency N0 s u = None) by (intros; unfold static_adjacency; now rewrite E).
    intros fuel N. split.
    + unfold net_of_frame. fold N0. destruct fuel as [|fuel]; [reflexivity|]. cbn [merge_all]. unfold merge_pass. now rewrite HS.
    + intros HN. rewrite frame_net in HN. fold N0 in HN. injection HN as <-. split; [assumption|]. intros g a b. unfold compute_laplacians.
      destruct (window (times (rows N0)) a b) as [[[ta ka] [tb kb]]|]; [now rewrite E|reflexivity].
Qed.
Definition frame174 : frame := [(4, (0, 2, qn 3, qn 5)); (9, (1, 2, qn 1, qn 2))].
Example C174_applies : labels_are 3 frame174 /\ net_of_frame 0 false frame174 <> None /\
  ~ (exists n, labels_are n [(0, (5, 7, qn 0, qn 1))]).
Proof.
  split; [|split; [discriminate|]].
  - intros x. unfold col_sources, col_targets. cbn. lia.
  - intros [n H]. destruct n as [|n]; [assert (K : 5 < 0) by (apply H; cbn; auto); lia|]. assert (K : In 0 [5; 7]) by (apply H; lia). cbn in K. lia.
Qed.

(** * C175: Laplacians of a table *)
Definition C175_statement : Prop := forall fuel f n N g a b, net_of_frame fuel false f = Some N -> f <> [] -> labels_are n f -> distinct_index f ->
  rows_join_two f -> rows_lasting f -> rows_disjoint f -> is_time_grid (rows N) g ->
  exists ka kb Ls, compute_laplacians N g a b = Some (ka, kb, Ls) /\ start_index (times (rows N)) a ka /\ stop_index (times (rows N)) b kb /\ length Ls = kb - ka /\
    forall k u, k < kb - ka -> (nth (ka + k) (times (rows N)) 0 <= u)%num -> (u < nth (S (ka + k)) (times (rows N)) 0)%num ->
      walk_laplacian n (fun i j => row_contact f i j u) (nth k Ls (fun _ _ => 0%num)).
(** rows not in order of time: the contact on [1, 2) is lost *)
Definition frame175 : frame := [(0, (0, 1, qn 1, qn 2)); (1, (0, 1, qn 0, qn 1))].
Definition net175 : net := mkNet [(0, ev 0 1 1 2); (1, ev 0 1 0 1)] [0; 1].
Theorem C175_unsorted_refuted : ~ C175_statement.
Proof.
  intros H. assert (E3 : match compute_laplacians net175 (sorted_grid (rows net175)) None None with Some (k1, k2, l) => (k1, k2, length l, qeqb (nth 1 l (fun _ _ => 0%num) 0 1) 0%num) | None => (5, 5, 5, false) end = (0, 2, 2, true)) by (vm_compute; reflexivity).
  assert (HL : labels_are 2 frame175) by (intros x; unfold col_sources, col_targets; cbn; lia).
  specialize (H 0 frame175 2 net175 (sorted_grid (rows net175)) None None eq_refl ltac:(discriminate) HL).
  destruct H as (ka & kb & Ls & E & _ & _ & _ & HK).
  - unfold distinct_index. cbn. repeat constructor; cbn; lia.
  - intros r; in_cases; cbn; lia.
  - intros r; in_cases; vm_compute; reflexivity.
  - intros x y i j Hx Hy Hxy _ _. destruct Hx as [<- | [<- | []]], Hy as [<- | [<- | []]]; cbn in Hxy; try lia; [right|left]; vm_compute; discriminate.
  - apply grid_exists.
  - rewrite E in E3. injection E3 as -> -> E3 E2. apply (reflect_iff _ _ (qeqb_spec _ _)) in E2.
    destruct (HK 1 (qn 1) ltac:(lia)) as (adj & HA & HLap); [vm_compute; discriminate|vm_compute; reflexivity|]. specialize (HLap 0 1 ltac:(lia) ltac:(lia)). rewrite E2 in HLap.
    assert (HC : row_contact frame175 0 1 (qn 1)). { eexists. split; [left; reflexivity|]. split; [left; now split|]. split; vm_compute; [discriminate|reflexivity]. }
    apply HA in HC; [|lia|lia]. unfold walk in HLap. cbn [Nat.eqb] in HLap. unfold degree in HLap. cbn [seq filter] in HLap. rewrite HC in HLap.
    destruct (adj 0 0); cbn [length] in HLap; vm_compute in HLap; discriminate HLap.
Qed.
Theorem C175_laplacians_partial : forall fuel f n N g a b, net_of_frame fuel false f = Some N -> f <> [] -> labels_are n f -> distinct_index f ->
  rows_join_two f -> rows_lasting f ->
  (* rows in order of time, numbered in that order, or of pairs that pause between contacts *)
  (counts_rows f /\ in_order_of_start f /\ rows_disjoint f) \/ rows_apart f -> is_time_grid (rows N) g ->
  exists ka kb Ls, compute_laplacians N g a b = Some (ka, kb, Ls) /\ start_index (times (rows N)) a ka /\ stop_index (times (rows N)) b kb /\ length Ls = kb - ka /\
    forall k u, k < kb - ka -> (nth (ka + k) (times (rows N)) 0 <= u)%num -> (u < nth (S (ka + k)) (times (rows N)) 0)%num ->
      walk_laplacian n (fun i j => row_contact f i j u) (nth k Ls (fun _ _ => 0%num)).
Proof.
  intros fuel f n N g a b HN Hne HL HD HT HLs HC HG. rewrite frame_net in HN. injection HN as <-. set (N := mkNet (with_durations f) (node_array (with_durations f))) in *.
  assert (EN : num_nodes_of N = n) by (unfold num_nodes_of, N; cbn [nodes]; rewrite (wd_nodes f n HL); apply seq_length).
  assert (G : forall u n' M, walk_laplacian n' (fun i j => contact (rows N) i j u) M -> walk_laplacian n' (fun i j => row_contact f i j u) M).
  { intros u n' M (adj & H1 & H2). exists adj. split; [|assumption]. intros i j Hi Hj. rewrite (H1 i j Hi Hj). apply wd_contact. }
  assert (Hr : rows N <> []) by (intros E; apply map_eq_nil in E; contradiction).
  destruct HC as [(C1 & C2 & C3) | C].
  - destruct (lap_exact N g a b Hr (wd_ids f n HL) (wd_self f HT) (wd_lasting f HLs) (wd_disjoint f C3) (wd_own f HD) (wd_index f C1 C2) HG) as (ka & kb & Ls & E & A1 & A2 & A3 & _ & _ & A4).
    exists ka, kb, Ls. do 4 (split; [assumption|]). intros k u Hk H1 H2. rewrite <- EN. now apply G, A4.
  - destruct (lap_exact_gen N g a b Hr (wd_ids f n HL) (wd_self f HT) (wd_lasting f HLs) (wd_own f HD) HG) as (ka & kb & Ls & E & A1 & A2 & A3 & _ & _ & A4).
    { intros u on i j Hon Hu. exact (step_complete_apart (with_durations f) g u on i j HG (wd_own f HD) (wd_lasting f HLs) (wd_apart f C) Hon Hu). }
    exists ka, kb, Ls. do 4 (split; [assumption|]). intros k u Hk H1 H2. rewrite <- EN. now apply G, A4.
Qed.
(** a table in order of time whose rows touch, and one out of order whose rows do not *)
Definition frame175s : frame := [(0, (0, 1, qn 0, qn 1)); (1, (1, 0, qn 1, qn 2))].
Definition frame175a : frame := [(7, (0, 1, qn 3, qn 5)); (2, (1, 0, qn 1, qn 2)); (3, (2, 0, qn 0, qn 4))].
Example C175_applies :
  (labels_are 2 frame175s /\ distinct_index frame175s /\ rows_join_two frame175s /\ rows_lasting frame175s /\ counts_rows frame175s /\ in_order_of_start frame175s /\ rows_disjoint frame175s) /\
  (labels_are 3 frame175a /\ distinct_index frame175a /\ rows_join_two frame175a /\ rows_lasting frame175a /\ rows_apart frame175a).
Proof.
  split.
  - split; [intros x; unfold col_sources, col_targets; cbn; lia|]. split; [unfold distinct_index; cbn; repeat constructor; cbn; lia|].
    split; [intros r; in_cases; cbn; lia|]. split; [intros r; in_cases; vm_compute; reflexivity|]. split; [reflexivity|].
    split; [repeat constructor; vm_compute; discriminate|].
    intros x y i j Hx Hy Hxy _ _. destruct Hx as [<- | [<- | []]], Hy as [<- | [<- | []]]; cbn in Hxy; try lia; [left|right]; vm_compute; discriminate.
  - split; [intros x; unfold col_sources, col_targets; cbn; lia|]. split; [unfold distinct_index; cbn; repeat constructor; cbn; lia|].
    split; [intros r; in_cases; cbn; lia|]. split; [intros r; in_cases; vm_compute; reflexivity|].
    intros x y i j Hx Hy Hxy J1 J2. unfold row_joins in *. destruct Hx as [<- | [<- | [<- | []]]], Hy as [<- | [<- | [<- | []]]]; cbn in Hxy, J1, J2; try lia; [right|left]; vm_compute; reflexivity.
Qed.

(** * C176: tables read from csv files *)
Definition C176_statement : Prop := forall fuel relabel_nodes merge l,
  net_of_source fuel relabel_nodes merge (Csv l) = net_of_source fuel relabel_nodes merge (Frame (combine (seq 0 (length l)) l)).
Theorem C176_path_refuted : ~ C176_statement.
Proof. intros H. specialize (H 0 true false [(0, 1, qn 0, qn 1)]). discriminate H. Qed.
(** no file at all can be read with the default [relabel_nodes] *)
Theorem C176_never : forall fuel merge s N, net_of_source fuel true merge s = Made N -> exists f, s = Frame f.
Proof. intros fuel merge [f|l| |] N H; try discriminate H. now exists f. Qed.
Theorem C176_without_relabelling_partial : forall fuel merge l,
  net_of_source fuel false merge (Csv l) = net_of_source fuel false merge (Frame (combine (seq 0 (length l)) l)) /\
  net_of_source fuel false merge (Csv l) = net_of_source fuel true merge (Frame (combine (seq 0 (length l)) l)) /\
  (forall s, net_of_source fuel false merge s = ValueError <-> s = BadFile \/ s = OtherObject) /\
  exists N, net_of_source fuel false false (Csv l) = Made N /\ map fst (rows N) = seq 0 (length l) /\
    map (fun r => (e_src (snd r), e_tgt (snd r), e_start (snd r), e_end (snd r))) (rows N) = l.
Proof.
  intros fuel merge l. split; [reflexivity|]. split; [reflexivity|]. split.
  { intros [f|m| |]; cbn [net_of_source]; split; auto; try (intros [K|K]; discriminate K); intros K; exfalso;
    destruct (net_of_frame fuel merge _); discriminate K. }
  eexists. split; [reflexivity|]. cbn [rows]. rewrite wd_fst. split; [apply map_fst_combine; apply seq_length|].
  unfold with_durations. rewrite map_map. cbn [snd e_src e_tgt e_start e_end]. unfold f_src, f_tgt, f_start, f_end.
  rewrite <- (map_map snd (fun q : row4 => (fst (fst (fst q)), snd (fst (fst q)), snd (fst q), snd q))).
  assert (E : map snd (combine (seq 0 (length l)) l) = l). { generalize 0. induction l as [|x l IH]; intros k; [reflexivity|]. cbn. now rewrite IH. }
  rewrite E. rewrite <- (map_id l) at 2. apply map_ext. now intros [[[s t] x] y].
Qed.
Example C176_applies : exists N, net_of_source 3 false true (Csv [(0, 1, qn 0, qn 2); (1, 0, qn 1, qn 4)]) = Made N /\ length (rows N) = 1.
Proof. eexists. split; reflexivity. Qed.

(** * C177: merging overlapping rows of a table *)
Definition C177_statement : Prop := forall f n N, net_of_frame 0 false f = Some N -> labels_are n f -> distinct_index f -> rows_lasting f -> simple_overlaps (rows N) ->
  exists fuel N', net_of_frame fuel true f = Some N' /\ no_overlap (rows N') /\ forall i j u, contact (rows N') i j u <-> row_contact f i j u.
(** an own index: the wrong row is dropped and the contact on [0, 1) is lost *)
Definition frame177 : frame := [(1, (0, 1, qn 0, qn 2)); (0, (0, 1, qn 1, qn 3))].
Definition net177 : net := mkNet [(1, ev 0 1 0 2); (0, ev 0 1 1 3)] [0; 1].
Lemma net177_simple : simple_overlaps (rows net177).
Proof.
  split; [|split].
  - intros a b e f Ha Hb Hab _ _. destruct Ha as [Ha|[Ha|[]]], Hb as [Hb|[Hb|[]]]; injection Ha as <- <-; injection Hb as <- <-; try lia; vm_compute; discriminate.
  - intros e f g. in_cases; try assumption; split; vm_compute; reflexivity.
  - intros e f He Hf _ _ Hlt _. in_cases; try (vm_compute in Hlt; discriminate Hlt); vm_compute; discriminate.
Qed.
Theorem C177_own_index_refuted : ~ C177_statement.
Proof.
  intros H. assert (HL : labels_are 2 frame177) by (intros x; unfold col_sources, col_targets; cbn; lia).
  destruct (H frame177 2 net177 eq_refl HL) as (fuel & N' & E & _ & HC).
  - unfold distinct_index. cbn. repeat constructor; cbn; lia.
  - intros r; in_cases; vm_compute; reflexivity.
  - exact net177_simple.
  - change (net_of_frame fuel true frame177) with (merge_all fuel net177) in E.
    assert (E2 : merge_all 3 net177 = Some (mkNet [(0, ev 0 1 1 3)] [0; 1])) by reflexivity.
    pose proof (merge_all_more _ (Nat.max fuel 3) _ _ E ltac:(lia)) as E3. rewrite (merge_all_more _ (Nat.max fuel 3) _ _ E2 ltac:(lia)) in E3. injection E3 as <-.
    destruct (proj2 (HC 0 1 (qn 0))) as (e & He & _ & HA & _).
    + eexists. split; [left; reflexivity|]. split; [left; now split|]. split; vm_compute; [discriminate|reflexivity].
    + cbn [rows map snd In] in He. destruct He as [<- | []]. vm_compute in HA. now apply HA.
Qed.
(** with the index 0, 1, ... in the order of the rows merging is that of networks made from lists *)
Theorem C177_merging_partial : forall f n N, net_of_frame 0 false f = Some N -> labels_are n f -> counts_rows f -> rows_ordered f ->
  (exists N', net_of_frame (S (length f)) true f = Some N') /\
  forall fuel N', net_of_frame fuel true f = Some N' ->
    nodes N' = seq 0 n /\ ids_ok N' = true /\ no_overlap (rows N') /\ map fst (rows N') = seq 0 (length (rows N')) /\
    (forall i j u, contact (rows N') i j u -> row_contact f i j u) /\
    (forall e', In e' (map snd (rows N')) -> exists r, In r f /\ e_src e' = f_src r /\ e_tgt e' = f_tgt r /\ e_start e' = f_start r) /\
    (rows_lasting f -> simple_overlaps (rows N) -> forall i j u, row_contact f i j u -> contact (rows N') i j u).
Proof.
  intros f n N HN HL HC HO. rewrite frame_net in HN. injection HN as <-. set (N := mkNet (with_durations f) (node_array (with_durations f))).
  pose proof (frame_well f n HC HO HL) as HW. fold N in HW. assert (Elen : length (rows N) = length f) by apply map_length. split.
  - change (net_of_frame (S (length f)) true f) with (merge_all (S (length f)) N). rewrite <- Elen. destruct (merge_all_sound (S (length (rows N))) N HW ltac:(lia)) as (N' & E & _). eauto.
  - intros fuel N' HM. change (net_of_frame fuel true f) with (merge_all fuel N) in HM. destruct (merge_all_ok fuel N N' HW HM) as ((R' & _ & I' & _) & En & _ & _ & C1 & V & T).
    split; [rewrite En; now apply (wd_nodes f n)|]. split; [assumption|]. split; [assumption|]. split; [exact R'|].
    split; [intros i j u Hu; now apply wd_contact, C1|]. split.
    + intros e' He'. destruct (T e' He') as (e & He & E1 & E2 & E3). apply wd_ev in He as (r & Hr & ->). exists r. auto.
    + intros HLs HS i j u Hu. apply (merge_all_simple fuel N N' HW (wd_lasting f HLs) HS HM). now apply wd_contact.
Qed.
Definition frame177s : frame := [(0, (0, 1, qn 1, qn 3)); (1, (1, 0, qn 0, qn 2))].
Example C177_applies : labels_are 2 frame177s /\ counts_rows frame177s /\ rows_ordered frame177s /\ rows_lasting frame177s /\
  (exists N', net_of_frame 3 true frame177s = Some N' /\ length (rows N') = 1) /\
  (* an index label that is no position raises *)
  net_of_frame 3 true [(10, (0, 1, qn 0, qn 2)); (11, (0, 1, qn 1, qn 3))] = None.
Proof.
  split; [intros x; unfold col_sources, col_targets; cbn; lia|]. split; [reflexivity|]. split; [intros r; in_cases; vm_compute; discriminate|].
  split; [intros r; in_cases; vm_compute; reflexivity|]. split; [|reflexivity]. eexists. split; reflexivity.
Qed.

(** * C178: the table of the caller *)
Definition C178_statement : Prop := forall fuel merge f N t, net_of_frame fuel merge f = Some N -> frame_after merge f = Some t -> columns t = f.
(** merging changes ending times in the table that was given *)
Definition frame178 : frame := [(0, (0, 1, qn 0, qn 2)); (1, (0, 1, qn 1, qn 3))].
Theorem C178_merging_refuted : ~ C178_statement.
Proof.
  intros H. destruct (net_of_frame 3 true frame178) as [N|] eqn:E; [|vm_compute in E; discriminate E].
  specialize (H 3 true frame178 N _ E eq_refl). apply (f_equal (map f_end)) in H. vm_compute in H. discriminate H.
Qed.
Theorem C178_untouched_partial : forall f t,
  (* without merging the columns are unchanged and give the same network again *)
  (frame_after false f = Some t -> columns t = f /\ forall fuel merge, net_of_frame fuel merge (columns t) = net_of_frame fuel merge f) /\
  (* with merging only ending times change *)
  (frame_after true f = Some t ->
     map (fun r => (fst r, f_src r, f_tgt r, f_start r)) (columns t) = map (fun r => (fst r, f_src r, f_tgt r, f_start r)) f /\
     (forall n, labels_are n f -> counts_rows f -> rows_ordered f -> forall i j u, row_contact (columns t) i j u -> row_contact f i j u)) /\
  (* and none of them when no rows overlap *)
  (forall n, labels_are n f -> counts_rows f -> rows_lasting f -> rows_disjoint f -> exists t', frame_after true f = Some t' /\ columns t' = f).
Proof.
  intros f t. set (N := mkNet (with_durations f) (node_array (with_durations f))).
  assert (EA : frame_after true f = match static_adjacency N None None with None => None | Some A => option_map fst (merge_pairs (pass_pairs N A) (rows N, repeat true (length (rows N)))) end) by reflexivity.
  split; [|split].
  - intros [= <-]. rewrite columns_wd. auto.
  - rewrite EA. intros H. destruct (static_adjacency N None None) as [A|] eqn:ES; [|discriminate].
    destruct (merge_pairs (pass_pairs N A) (rows N, repeat true (length (rows N)))) as [[t1 k1]|] eqn:E; [|discriminate]. injection H as <-. cbn [fst]. split.
    + apply pairs_shape in E. cbn [fst] in E. rewrite <- (columns_wd f). unfold columns. rewrite !map_map. exact E.
    + intros n HL HC HO. pose proof (frame_well f n HC HO HL) as HW. fold N in HW.
      destruct (merge_pairs_sound (pass_pairs N A) (rows N) (repeat true (length (rows N))) (wd_reset f HC) (wd_ordered f HO) (repeat_length _ _)) as (t2 & k2 & E2 & HB & _).
      { intros p Hp. now apply (static_pairs N A). }
      rewrite E in E2. injection E2 as <- <-. intros i j u (r & Hr & HJ & HA). unfold columns in Hr. apply in_map_iff in Hr as (x & <- & Hx).
      apply wd_contact. apply (bounded_contact _ t1 i j u HB). exists (snd x). split; [now apply in_map|]. now split.
  - intros n HL HC HLs HD. assert (HO : rows_ordered f) by (intros r Hr; specialize (HLs r Hr); qlra). pose proof (frame_well f n HC HO HL) as HW. fold N in HW.
    rewrite EA. destruct (static_adjacency N None None) as [A|] eqn:ES; [|unfold static_adjacency in ES; unfold N in ES; rewrite (wd_ids f n HL) in ES; discriminate ES].
    rewrite (pairs_idle (rows N) _ (pass_pairs N A) (wd_own f (counts_distinct f HC)) (wd_disjoint f HD) (wd_lasting f HLs)).
    + exists (rows N). split; [reflexivity|]. apply columns_wd.
    + intros p Hp. now apply (static_pairs N A).
Qed.
Example C178_applies : frame_after false frame178 <> None /\ frame_after true frame178 <> None /\
  labels_are 2 frame175s /\ counts_rows frame175s /\ rows_lasting frame175s /\ rows_disjoint frame175s.
Proof.
  destruct C175_applies as [(A1 & _ & _ & A2 & A3 & _ & A4) _]. split; [discriminate|]. split; [vm_compute; discriminate|]. auto.
Qed.

Print Assumptions C174_labels_refuted.
Print Assumptions C174_numbered_partial.
Print Assumptions C174_other_labels.
Print Assumptions C175_unsorted_refuted.
Print Assumptions C175_laplacians_partial.
Print Assumptions C176_path_refuted.
Print Assumptions C176_never.
Print Assumptions C176_without_relabelling_partial.
Print Assumptions C177_own_index_refuted.
Print Assumptions C177_merging_partial.
Print Assumptions C178_merging_refuted.
Print Assumptions C178_untouched_partial.
