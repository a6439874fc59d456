(** Lemmas about networks made from tables of events. *)
From Verif Require Import Base PartitionModel LouvainModel EventsModel EventsSpec EventsProofs LaplacianProofs MergeProofs InstProofs EventsProps TableModel TableSpec.

(** ** Rows and events *)
Definition to_event (r : nat * row4) : event := mkEv (f_src r) (f_tgt r) (f_start r) (f_end r) (f_end r - f_start r)%num.
Lemma wd_events f : map snd (with_durations f) = map to_event f.
Proof. unfold with_durations. now rewrite map_map. Qed.
Lemma wd_fst f : map fst (with_durations f) = map fst f.
Proof. unfold with_durations. now rewrite map_map. Qed.
Lemma wd_length f : length (with_durations f) = length f.
Proof. apply map_length. Qed.
Lemma wd_in f a e : In (a, e) (with_durations f) <-> exists r, In r f /\ a = fst r /\ e = to_event r.
Proof. unfold with_durations. rewrite in_map_iff. split; [intros (r & [= <- <-] & H)|intros (r & H & -> & ->)]; exists r; auto. Qed.
Lemma wd_ev f e : In e (map snd (with_durations f)) <-> exists r, In r f /\ e = to_event r.
Proof. rewrite wd_events, in_map_iff. split; intros (r & H & K); exists r; auto. Qed.
Lemma columns_wd f : columns (with_durations f) = f.
Proof. unfold columns, with_durations. rewrite map_map. rewrite <- (map_id f) at 2. apply map_ext. now intros [a [[[s t] x] y]]. Qed.

Lemma wd_own f : distinct_index f -> own_index (with_durations f).
Proof. unfold distinct_index, own_index. now rewrite wd_fst. Qed.
Lemma wd_reset f : counts_rows f -> table_reset (with_durations f).
Proof. unfold counts_rows, table_reset. now rewrite wd_fst, wd_length. Qed.
Lemma counts_distinct f : counts_rows f -> distinct_index f.
Proof. unfold counts_rows, distinct_index. intros ->. apply seq_NoDup. Qed.
Lemma wd_lasting f : rows_lasting f -> lasting (with_durations f).
Proof. intros H e He. apply wd_ev in He as (r & Hr & ->). now apply H. Qed.
Lemma wd_ordered f : rows_ordered f -> ordered (with_durations f).
Proof. intros H e He. apply wd_ev in He as (r & Hr & ->). now apply H. Qed.
Lemma wd_self f : rows_join_two f -> no_self_contact (with_durations f).
Proof. intros H e He. apply wd_ev in He as (r & Hr & ->). now apply H. Qed.
Lemma wd_disjoint f : rows_disjoint f -> no_overlap (with_durations f).
Proof.
  intros H a b e e' i j Ha Hb Hab J1 J2. apply wd_in in Ha as (r & Hr & -> & ->). apply wd_in in Hb as (r' & Hr' & -> & ->). now apply (H r r' i j).
Qed.
Lemma wd_apart f : rows_apart f -> no_touch (with_durations f).
Proof.
  intros H a b e e' i j Ha Hb Hab J1 J2. apply wd_in in Ha as (r & Hr & -> & ->). apply wd_in in Hb as (r' & Hr' & -> & ->). now apply (H r r' i j).
Qed.
Lemma wd_contact f i j u : contact (with_durations f) i j u <-> row_contact f i j u.
Proof.
  unfold contact, row_contact. split.
  - intros (e & He & HJ & HA). apply wd_ev in He as (r & Hr & ->). exists r. split; [assumption|]. now split.
  - intros (r & Hr & HJ & HA). exists (to_event r). split; [apply wd_ev; eauto|]. now split.
Qed.
Lemma wd_by_start f : in_order_of_start f -> by_start (with_durations f).
Proof.
  unfold in_order_of_start, by_start, with_durations. induction 1 as [|r f H IH F]; cbn [map]; constructor; [assumption|].
  rewrite Forall_forall in *. intros x Hx. apply in_map_iff in Hx as (y & <- & Hy). now apply F.
Qed.
Lemma wd_index f : counts_rows f -> in_order_of_start f -> index_by_start (with_durations f).
Proof. intros HC HS. rewrite <- (reset_index_id (with_durations f)) by now apply wd_reset. now apply by_start_index, wd_by_start. Qed.

(** ** Nodes *)
Lemma wd_nodes_in f x : In x (node_array (with_durations f)) <-> In x (col_sources f ++ col_targets f).
Proof.
  rewrite node_array_in, in_app_iff. unfold col_sources, col_targets. rewrite !in_map_iff. split.
  - intros (e & He & Hx). apply wd_ev in He as (r & Hr & ->). destruct Hx as [-> | ->]; [left|right]; now exists r.
  - intros [(r & <- & Hr) | (r & <- & Hr)]; exists (to_event r); (split; [apply wd_ev; eauto|auto]).
Qed.
Lemma leb_total_order : total_order Nat.leb.
Proof.
  repeat split.
  - intros a b. rewrite !Nat.leb_le. lia.
  - intros a b c. rewrite !Nat.leb_le. lia.
  - intros a b. rewrite !Nat.leb_le. lia.
Qed.
Lemma wd_nodes f n : labels_are n f -> node_array (with_durations f) = seq 0 n.
Proof. intros H. apply sorted_range; [apply node_array_sorted|]. intros x. rewrite wd_nodes_in. apply H. Qed.
Lemma wd_ids f n : labels_are n f -> ids_ok (mkNet (with_durations f) (node_array (with_durations f))) = true.
Proof.
  intros H. apply ids_ok_spec. unfold num_nodes_of. cbn [rows nodes]. rewrite (wd_nodes f n H), seq_length. intros e He. apply wd_ev in He as (r & Hr & ->).
  split; apply H, in_or_app; [left; now apply (in_map f_src)|right; now apply (in_map f_tgt)].
Qed.

(** ** The same events as lists *)
Lemma zip_frame f : zip_events (col_sources f) (col_targets f) (col_starts f) (col_ends f) = Some (map to_event f).
Proof. induction f as [|r f IH]; [reflexivity|]. cbn [col_sources col_targets col_starts col_ends map zip_events]. unfold col_sources, col_targets, col_starts, col_ends in IH. now rewrite IH. Qed.
Lemma lists_net fuel f : exists t, make_net fuel true false (col_sources f) (col_targets f) (col_starts f) (col_ends f) = Some (mkNet t (node_array t)) /\
  Permutation (map snd t) (map snd (with_durations f)).
Proof.
  unfold make_net. destruct (build_table true (col_sources f) (col_targets f) (col_starts f) (col_ends f)) as [t|] eqn:E.
  - exists t. split; [reflexivity|]. destruct (build_table_perm _ _ _ _ _ _ E) as (evs & Ez & P & _). rewrite zip_frame in Ez. injection Ez as <-. now rewrite wd_events.
  - exfalso. unfold build_table in E. rewrite zip_frame in E. discriminate.
Qed.
Lemma min_perm l m : Permutation l m -> num_min l = num_min m.
Proof.
  intros H. destruct l as [|a l]; [apply Permutation_nil in H; now subst|]. assert (Hm : m <> []) by (intros ->; apply Permutation_sym, Permutation_nil in H; discriminate).
  destruct (num_min_spec (a :: l)) as [A1 A2]; [discriminate|]. destruct (num_min_spec m Hm) as [B1 B2]. apply Qcle_antisym; [apply A2|apply B2]; eapply Permutation_in; try eassumption; now symmetry.
Qed.
Lemma max_perm l m : Permutation l m -> num_maxl l = num_maxl m.
Proof.
  intros H. destruct l as [|a l]; [apply Permutation_nil in H; now subst|]. assert (Hm : m <> []) by (intros ->; apply Permutation_sym, Permutation_nil in H; discriminate).
  destruct (num_maxl_spec (a :: l)) as [A1 A2]; [discriminate|]. destruct (num_maxl_spec m Hm) as [B1 B2]. apply Qcle_antisym; [apply B2|apply A2]; eapply Permutation_in; try eassumption; now symmetry.
Qed.
Lemma coo_perm t t' s u i j : Permutation (map snd t) (map snd t') -> coo_entry t s u i j = coo_entry t' s u i j.
Proof.
  intros H. assert (G : forall l : table, coo_entry l s u i j = sumL (fun e => if in_window e s u then if ((e_src e =? i) && (e_tgt e =? j))%bool then clipped e s u else 0%num else 0%num) (map snd l)).
  { intros l. unfold coo_entry. now rewrite sumL_filter, sumL_map. }
  rewrite !G. now apply sumL_perm.
Qed.
Lemma ids_perm N N' : Permutation (map snd (rows N)) (map snd (rows N')) -> num_nodes_of N = num_nodes_of N' -> ids_ok N = ids_ok N'.
Proof.
  intros H E. apply eq_true_iff_eq. rewrite !ids_ok_spec, E. split; intros K e He; apply K; eapply Permutation_in; try eassumption. now symmetry.
Qed.
Lemma start_perm N N' : Permutation (map snd (rows N)) (map snd (rows N')) -> start_time N = start_time N'.
Proof. intros H. unfold start_time. apply min_perm. rewrite <- (map_map snd e_start (rows N)), <- (map_map snd e_start (rows N')). now apply Permutation_map. Qed.
Lemma end_perm N N' : Permutation (map snd (rows N)) (map snd (rows N')) -> end_time N = end_time N'.
Proof. intros H. unfold end_time. apply max_perm. rewrite <- (map_map snd e_end (rows N)), <- (map_map snd e_end (rows N')). now apply Permutation_map. Qed.
Lemma static_perm N N' s u : Permutation (map snd (rows N)) (map snd (rows N')) -> num_nodes_of N = num_nodes_of N' ->
  match static_adjacency N s u, static_adjacency N' s u with
  | Some A, Some B => forall i j, A i j = B i j
  | None, None => True
  | _, _ => False
  end.
Proof.
  intros H E. unfold static_adjacency. rewrite (ids_perm N N' H E), (start_perm N N' H), (end_perm N N' H). destruct (ids_ok N'); [|exact I].
  intros i j. now rewrite !(coo_perm (rows N) (rows N') _ _ _ _ H).
Qed.

(** ** Merging *)
Lemma frame_net fuel f : net_of_frame fuel false f = Some (mkNet (with_durations f) (node_array (with_durations f))).
Proof. reflexivity. Qed.
Lemma frame_well f n : counts_rows f -> rows_ordered f -> labels_are n f -> well_made (mkNet (with_durations f) (node_array (with_durations f))).
Proof.
  intros HC HO HL. split; [now apply wd_reset|]. split; [now apply wd_ordered|]. split; [now apply (wd_ids f n)|]. cbn [rows nodes]. intros e He. split; apply node_array_in; exists e; auto.
Qed.
(** merging rounds keep index, nodes and starting times of the rows *)
Lemma loop_shape : forall evs ev1 t keep t' keep', merge_loop ev1 evs t keep = Some (t', keep') -> map shape t' = map shape t.
Proof.
  induction evs as [|ev2 evs IH]; intros ev1 t keep t' keep' H; cbn [merge_loop] in H; [now injection H as <- _|].
  destruct (qltb (e_start (snd ev2)) (e_end (snd ev1))); [|now apply IH in H]. destruct (fst ev2 <? length keep); [|discriminate].
  apply IH in H. now rewrite H, set_end_shape.
Qed.
Lemma pairs_shape ps : forall st st', merge_pairs ps st = Some st' -> map shape (fst st') = map shape (fst st).
Proof.
  induction ps as [|[n1 n2] ps IH]; intros st st' H; cbn [merge_pairs] in H; [now injection H as <-|].
  destruct (merge_pair n1 n2 st) as [st1|] eqn:E; [|discriminate]. rewrite (IH _ _ H). unfold merge_pair in E.
  destruct (sort_rows _) as [|ev1 evs]; [discriminate|]. destruct st1 as [t1 k1]. now apply loop_shape in E.
Qed.
(** nothing happens to rows without overlaps *)
Lemma loop_idle t0 n1 n2 : own_index t0 -> no_overlap t0 -> lasting t0 -> forall evs ev1 t keep, StronglySorted row_ev_le (ev1 :: evs) -> NoDup (ev1 :: evs) ->
  (forall r, In r (ev1 :: evs) -> In r t0 /\ joins (snd r) n1 n2) -> merge_loop ev1 evs t keep = Some (t, keep).
Proof.
  intros HO HV HL. induction evs as [|ev2 evs IH]; intros ev1 t keep HS HN HR; [reflexivity|]. cbn [merge_loop].
  apply StronglySorted_inv in HS as [HS HF]. rewrite Forall_forall in HF. specialize (HF ev2 (or_introl eq_refl)).
  destruct (HR ev1 (or_introl eq_refl)) as [R1 J1]. destruct (HR ev2 (or_intror (or_introl eq_refl))) as [R2 J2].
  assert (Hne : fst ev1 <> fst ev2).
  { intros E. apply NoDup_cons_iff in HN as [HN _]. apply HN. left. destruct ev1 as [a e], ev2 as [b f]. cbn in E. subst b. f_equal. symmetry. now apply (own_unique t0 a). }
  destruct (qltb_spec (e_start (snd ev2)) (e_end (snd ev1))) as [H|H].
  - exfalso. apply ev_le_start in HF. pose proof (HL (snd ev1) (in_map snd _ _ R1)). pose proof (HL (snd ev2) (in_map snd _ _ R2)).
    destruct ev1 as [a e], ev2 as [b f]. destruct (HV a b e f n1 n2 R1 R2 Hne J1 J2); cbn [snd] in *; qlra.
  - apply IH; [assumption|now apply NoDup_cons_iff in HN|]. intros r Hr. apply HR. now right.
Qed.
Lemma pairs_idle t keep ps : own_index t -> no_overlap t -> lasting t -> (forall p, In p ps -> pair_exists t p) -> merge_pairs ps (t, keep) = Some (t, keep).
Proof.
  intros HO HV HL. induction ps as [|[n1 n2] ps IH]; intros HP; [reflexivity|]. cbn [merge_pairs]. unfold merge_pair. cbn [fst snd].
  change (sort_rows (filter (fun r => same_pair n1 n2 (snd r)) t)) with (pair_rows n1 n2 t).
  assert (HN : NoDup (pair_rows n1 n2 t)). { unfold pair_rows. eapply Permutation_NoDup; [apply Permutation_sym, sort_rows_perm|]. apply NoDup_filter. now apply (NoDup_map_inv fst). }
  destruct (pair_rows n1 n2 t) as [|ev1 evs] eqn:E.
  - exfalso. destruct (HP (n1, n2) (or_introl eq_refl)) as (e & He & HJ). apply in_table in He as [a Ha]. assert (K : In (a, e) (pair_rows n1 n2 t)) by (apply pair_rows_in; now split). now rewrite E in K.
  - rewrite (loop_idle t n1 n2 HO HV HL evs ev1 t keep).
    + apply IH. intros p Hp. apply HP. now right.
    + rewrite <- E. apply pair_rows_sorted.
    + assumption.
    + intros r Hr. apply pair_rows_in. now rewrite E.
Qed.
