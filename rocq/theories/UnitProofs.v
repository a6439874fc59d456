(** Lemmas for C191: all event handling of temporal_network.py commutes with a change of the unit and of the origin of time. *)
From Verif Require Import Base PartitionModel LouvainModel EventsModel EventsSpec.
Local Open Scope bool_scope.

Section Unit.
Context (c d : num) (Hc : (0 < c)%num).
Definition conv (t : num) : num := (c * t + d)%num.
Definition conv_event (e : event) : event := mkEv (e_src e) (e_tgt e) (conv (e_start e)) (conv (e_end e)) (c * e_dur e)%num.
Definition conv_row (r : nat * event) : nat * event := (fst r, conv_event (snd r)).
Definition conv_table (t : table) : table := map conv_row t.
Definition conv_net (N : net) : net := mkNet (conv_table (rows N)) (nodes N).
Definition conv_grid_row (r : grid_row) : grid_row := mkRow (conv (g_time r)) (g_id r) (g_is_start r).
Definition conv_grid (g : list grid_row) : list grid_row := map conv_grid_row g.

Lemma conv_lt a b : (conv a < conv b)%num <-> (a < b)%num.
Proof.
  unfold conv. split; intros H.
  - destruct (Qclt_le_dec a b) as [L|L]; [exact L|]. exfalso. assert (H1 := qmult_nonneg c (a - b)%num (Qclt_le_weak _ _ Hc)). 
    assert (H2 : (0 <= c * (a - b))%num) by (apply H1; revert L; clear; qlra). replace (c * a + d)%num with (c * b + d + c * (a - b))%num in H by ring. revert H H2. generalize (c * b + d)%num (c * (a - b))%num. clear. qlra.
  - assert (H2 : (0 < c * (b - a))%num) by (apply qmult_pos; [exact Hc|revert H; clear; qlra]). replace (c * b + d)%num with (c * a + d + c * (b - a))%num by ring. revert H2. generalize (c * a + d)%num (c * (b - a))%num. clear. qlra.
Qed.
Lemma conv_le a b : (conv a <= conv b)%num <-> (a <= b)%num.
Proof.
  split; intros H; apply Qcnot_lt_le; intros L.
  - apply conv_lt in L. exact (Qclt_not_le _ _ L H).
  - exact (Qclt_not_le _ _ (proj1 (conv_lt b a) L) H).
Qed.
Lemma conv_inj a b : conv a = conv b <-> a = b.
Proof. split; [|now intros ->]. intros E. apply Qcle_antisym; apply conv_le; rewrite E; apply Qcle_refl. Qed.
Lemma conv_ltb a b : qltb (conv a) (conv b) = qltb a b.
Proof. destruct (qltb_spec (conv a) (conv b)) as [H|H], (qltb_spec a b) as [G|G]; try reflexivity; rewrite conv_lt in H; contradiction. Qed.
Lemma conv_leb a b : qleb (conv a) (conv b) = qleb a b.
Proof. destruct (qleb_spec (conv a) (conv b)) as [H|H], (qleb_spec a b) as [G|G]; try reflexivity; rewrite conv_le in H; contradiction. Qed.
Lemma conv_eqb a b : qeqb (conv a) (conv b) = qeqb a b.
Proof. destruct (qeqb_spec (conv a) (conv b)) as [H|H], (qeqb_spec a b) as [G|G]; try reflexivity; rewrite conv_inj in H; contradiction. Qed.
Lemma conv_sub a b : (conv a - conv b)%num = (c * (a - b))%num.
Proof. unfold conv. ring. Qed.
Lemma scaled_pos x : qltb 0%num (c * x)%num = qltb 0%num x.
Proof.
  assert (H := conv_ltb 0 x). unfold conv in H. rewrite <- H. destruct (qltb_spec 0%num (c * x)%num) as [A|A], (qltb_spec (c * 0 + d)%num (c * x + d)%num) as [B|B]; try reflexivity;
    exfalso; replace (c * 0 + d)%num with d in B by ring; [apply B|apply A]; [revert A|revert B]; generalize (c * x)%num; clear; intros y; qlra.
Qed.

Lemma filter_conv {A B} (f : A -> B) (P : B -> bool) (Q : A -> bool) l : (forall x, P (f x) = Q x) -> filter P (map f l) = map f (filter Q l).
Proof. intros H. induction l as [|x l IH]; [reflexivity|]. cbn. rewrite H, IH. now destruct (Q x). Qed.

(** ** the table *)
Lemma zip_conv srcs : forall tgts starts ends, zip_events srcs tgts (map conv starts) (map conv ends) = option_map (map conv_event) (zip_events srcs tgts starts ends).
Proof.
  induction srcs as [|s srcs IH]; intros [|t tgts] [|a starts] [|b ends]; try reflexivity. cbn [zip_events map]. rewrite IH. destruct (zip_events srcs tgts starts ends); [|reflexivity].
  cbn. unfold conv_event. cbn. now rewrite conv_sub.
Qed.
Lemma leb_conv a b : ev_leb (conv_event a) (conv_event b) = ev_leb a b.
Proof. unfold ev_leb. cbn. now rewrite conv_ltb, conv_eqb, conv_leb. Qed.
Lemma insert_conv x t : row_insert (conv_row x) (conv_table t) = conv_table (row_insert x t).
Proof. induction t as [|y t IH]; [reflexivity|]. cbn [conv_table map row_insert]. fold (conv_table t). cbn [conv_row snd]. rewrite leb_conv. destruct (ev_leb (snd x) (snd y)); [reflexivity|]. cbn [conv_table map]. f_equal. exact IH. Qed.
Lemma sort_conv t : sort_rows (conv_table t) = conv_table (sort_rows t).
Proof. unfold sort_rows. induction t as [|x t IH]; [reflexivity|]. cbn [conv_table map fold_right]. fold (conv_table t). rewrite IH. apply insert_conv. Qed.
Lemma combine_conv l evs : combine l (map conv_event evs) = conv_table (combine l evs).
Proof. revert evs. induction l as [|x l IH]; intros [|e evs]; [reflexivity..|]. cbn. now rewrite IH. Qed.
Lemma snd_conv t : map snd (conv_table t) = map conv_event (map snd t).
Proof. unfold conv_table. now rewrite !map_map. Qed.
Lemma reset_conv t : reset_index (conv_table t) = conv_table (reset_index t).
Proof. unfold reset_index. rewrite snd_conv, <- combine_conv. unfold conv_table. now rewrite map_length. Qed.
Lemma build_conv reset srcs tgts starts ends : build_table reset srcs tgts (map conv starts) (map conv ends) = option_map conv_table (build_table reset srcs tgts starts ends).
Proof.
  unfold build_table. rewrite zip_conv. destruct (zip_events srcs tgts starts ends) as [evs|]; [|reflexivity]. cbn. rewrite map_length, combine_conv, sort_conv.
  destruct reset; [now rewrite reset_conv|reflexivity].
Qed.
Lemma node_array_conv t : node_array (conv_table t) = node_array t.
Proof. unfold node_array, conv_table. now rewrite !map_map. Qed.
Lemma ids_ok_conv N : ids_ok (conv_net N) = ids_ok N.
Proof. unfold ids_ok, conv_net, num_nodes_of, conv_table. cbn. induction (rows N) as [|r t IH]; [reflexivity|]. cbn. now rewrite IH. Qed.

(** ** adjacency and merging *)
Lemma min_conv l : l <> [] -> num_min (map conv l) = conv (num_min l).
Proof.
  destruct l as [|x l]; [congruence|]. intros _. unfold num_min. cbn. revert x. induction l as [|y l IH]; intros x; [reflexivity|]. cbn. rewrite conv_ltb. destruct (qltb y x); apply IH.
Qed.
Lemma maxl_conv l : l <> [] -> num_maxl (map conv l) = conv (num_maxl l).
Proof.
  destruct l as [|x l]; [congruence|]. intros _. unfold num_maxl. cbn. revert x. induction l as [|y l IH]; intros x; [reflexivity|]. cbn. rewrite conv_ltb. destruct (qltb x y); apply IH.
Qed.
Lemma start_conv N : rows N <> [] -> start_time (conv_net N) = conv (start_time N).
Proof. intros H. unfold start_time, conv_net, conv_table. cbn. rewrite <- min_conv by (destruct (rows N); [congruence|discriminate]). now rewrite !map_map. Qed.
Lemma end_conv N : rows N <> [] -> end_time (conv_net N) = conv (end_time N).
Proof. intros H. unfold end_time, conv_net, conv_table. cbn. rewrite <- maxl_conv by (destruct (rows N); [congruence|discriminate]). now rewrite !map_map. Qed.
Lemma clipped_conv e s t : clipped (conv_event e) (conv s) (conv t) = (c * clipped e s t)%num.
Proof. unfold clipped. cbn. rewrite !conv_leb. destruct (qleb (e_end e) t), (qleb s (e_start e)); apply conv_sub. Qed.
Lemma coo_conv t s u i j : coo_entry (conv_table t) (conv s) (conv u) i j = (c * coo_entry t s u i j)%num.
Proof.
  unfold coo_entry. rewrite (filter_conv conv_row _ (fun r => in_window (snd r) s u)) by (intros r; unfold in_window; cbn; now rewrite !conv_ltb).
  rewrite sumL_map. rewrite <- sumL_scal_l. apply sumL_ext. intros r _. cbn. destruct ((e_src (snd r) =? i) && (e_tgt (snd r) =? j)); [apply clipped_conv|ring].
Qed.
Lemma static_conv N A : static_adjacency N None None = Some A -> exists A', static_adjacency (conv_net N) None None = Some A' /\ forall i j, A' i j = (c * A i j)%num.
Proof.
  unfold static_adjacency. rewrite ids_ok_conv. destruct (ids_ok N); [|discriminate]. intros [= <-]. eexists. split; [reflexivity|]. intros i j.
  destruct (rows N) as [|r t] eqn:E.
  - unfold coo_entry, conv_net, conv_table. rewrite E. cbn. ring.
  - rewrite start_conv, end_conv by congruence. unfold conv_net. cbn [rows]. rewrite E. rewrite !coo_conv. ring.
Qed.
Lemma static_conv_none N : static_adjacency N None None = None -> static_adjacency (conv_net N) None None = None.
Proof. unfold static_adjacency. rewrite ids_ok_conv. now destruct (ids_ok N). Qed.
Lemma same_pair_conv n1 n2 e : same_pair n1 n2 (conv_event e) = same_pair n1 n2 e.
Proof. reflexivity. Qed.
Lemma set_end_conv t id v : set_end (conv_table t) id (conv v) = conv_table (set_end t id v).
Proof. unfold set_end, conv_table. rewrite !map_map. apply map_ext. intros r. cbn. now destruct (fst r =? id). Qed.
Definition conv_state (st : table * list bool) := (conv_table (fst st), snd st).
Lemma merge_loop_conv evs : forall ev1 t keep, merge_loop (conv_row ev1) (conv_table evs) (conv_table t) keep = option_map conv_state (merge_loop ev1 evs t keep).
Proof.
  induction evs as [|ev2 evs IH]; intros ev1 t keep; [reflexivity|]. cbn [merge_loop conv_table map]. fold (conv_table evs). fold (conv_table t). cbn [conv_row snd fst conv_event e_start e_end].
  rewrite conv_ltb. destruct (qltb (e_start (snd ev2)) (e_end (snd ev1))).
  - destruct (fst ev2 <? length keep); [|reflexivity]. rewrite set_end_conv. apply IH.
  - apply (IH ev2).
Qed.
Lemma merge_pair_conv n1 n2 st : merge_pair n1 n2 (conv_state st) = option_map conv_state (merge_pair n1 n2 st).
Proof.
  unfold merge_pair, conv_state. cbn [fst snd]. unfold conv_table at 1. rewrite (filter_conv conv_row _ (fun r => same_pair n1 n2 (snd r))) by reflexivity.
  fold (conv_table (filter (fun r => same_pair n1 n2 (snd r)) (fst st))). rewrite sort_conv. destruct (sort_rows _) as [|ev1 evs]; [reflexivity|]. apply merge_loop_conv.
Qed.
Lemma merge_pairs_conv ps : forall st, merge_pairs ps (conv_state st) = option_map conv_state (merge_pairs ps st).
Proof.
  induction ps as [|[n1 n2] ps IH]; intros st; [reflexivity|]. cbn [merge_pairs]. rewrite merge_pair_conv. destruct (merge_pair n1 n2 st) as [st'|]; [apply IH|reflexivity].
Qed.
Lemma mask_conv t keep : mask_rows (conv_table t) keep = conv_table (mask_rows t keep).
Proof.
  unfold mask_rows, conv_table. revert keep. induction t as [|r t IH]; intros [|k keep]; try reflexivity. cbn. destruct k; cbn; now rewrite IH.
Qed.
Lemma merge_pass_conv N : merge_pass (conv_net N) = option_map (fun x => (conv_net (fst x), snd x)) (merge_pass N).
Proof.
  unfold merge_pass. destruct (static_adjacency N None None) as [A|] eqn:E; [|now rewrite static_conv_none]. destruct (static_conv N A E) as (A' & -> & HA).
  assert (EP : flat_map (fun n1 => map (fun n2 => (n1, n2)) (filter (fun n2 => qltb 0%num (A' n1 n2)) (seq 0 (num_nodes_of (conv_net N))))) (nodes (conv_net N))
    = flat_map (fun n1 => map (fun n2 => (n1, n2)) (filter (fun n2 => qltb 0%num (A n1 n2)) (seq 0 (num_nodes_of N)))) (nodes N)).
  { cbn [conv_net nodes num_nodes_of]. apply flat_map_ext. intros n1. f_equal. apply filter_ext. intros n2. now rewrite HA, scaled_pos. }
  rewrite EP. assert (ES : (rows (conv_net N), repeat true (length (rows (conv_net N)))) = conv_state (rows N, repeat true (length (rows N)))).
  { unfold conv_state, conv_net, conv_table. cbn. now rewrite map_length. }
  rewrite ES, merge_pairs_conv. destruct (merge_pairs _ (rows N, _)) as [[t keep]|]; [|reflexivity]. cbn [option_map conv_state fst snd conv_net nodes rows]. rewrite mask_conv, reset_conv. reflexivity.
Qed.
Lemma merge_all_conv fuel : forall N, merge_all fuel (conv_net N) = option_map conv_net (merge_all fuel N).
Proof.
  induction fuel as [|f IH]; intros N; [reflexivity|]. cbn [merge_all]. rewrite merge_pass_conv. destruct (merge_pass N) as [[N' k]|]; [|reflexivity]. cbn. destruct (k =? 0); [reflexivity|apply IH].
Qed.
Lemma make_net_conv fuel reset merge srcs tgts starts ends :
  make_net fuel reset merge srcs tgts (map conv starts) (map conv ends) = option_map conv_net (make_net fuel reset merge srcs tgts starts ends).
Proof.
  unfold make_net. rewrite build_conv. destruct (build_table reset srcs tgts starts ends) as [t|]; [|reflexivity]. cbn. rewrite node_array_conv.
  change (mkNet (conv_table t) (node_array t)) with (conv_net (mkNet t (node_array t))). destruct merge; [apply merge_all_conv|reflexivity].
Qed.

(** ** the time grid *)
Lemma grid_rows_conv t : grid_rows (conv_table t) = conv_grid (grid_rows t).
Proof. unfold grid_rows, conv_grid, conv_table. now rewrite map_app, !map_map. Qed.
Lemma time_grid_conv t g : is_time_grid t g -> is_time_grid (conv_table t) (conv_grid g).
Proof.
  intros [HP HS]. split; [rewrite grid_rows_conv; now apply Permutation_map|]. clear HP. induction HS as [|r l HS IH HF]; constructor; [exact IH|].
  apply Forall_forall. intros x Hx. apply in_map_iff in Hx. destruct Hx as (y & <- & Hy). rewrite Forall_forall in HF. unfold row_le. cbn. rewrite conv_lt, conv_inj. exact (HF y Hy).
Qed.
Lemma time_insert_conv x l : time_insert (conv x) (map conv l) = map conv (time_insert x l).
Proof. induction l as [|y l IH]; [reflexivity|]. cbn. rewrite conv_eqb, conv_ltb. destruct (qeqb x y); [reflexivity|]. destruct (qltb x y); [reflexivity|]. cbn. now rewrite IH. Qed.
Lemma times_conv t : times (conv_table t) = map conv (times t).
Proof.
  unfold times. rewrite grid_rows_conv. unfold conv_grid. rewrite map_map. change (fun x => g_time (conv_grid_row x)) with (fun x => conv (g_time x)). rewrite <- (map_map g_time conv).
  induction (map g_time (grid_rows t)) as [|x l IH]; [reflexivity|]. cbn. rewrite IH. apply time_insert_conv.
Qed.
Lemma index_of_conv x l : index_of (conv x) (map conv l) = index_of x l.
Proof. induction l as [|y l IH]; [reflexivity|]. cbn. rewrite conv_eqb. destruct (qeqb x y); [reflexivity|]. now rewrite IH. Qed.
Lemma existsb_conv t l : existsb (qeqb (conv t)) (map conv l) = existsb (qeqb t) l.
Proof. induction l as [|y l IH]; [reflexivity|]. cbn. now rewrite conv_eqb, IH. Qed.
Definition conv_place (x : num * nat) := (conv (fst x), snd x).
Lemma closest_conv ts t : closest_time (map conv ts) (conv t) = option_map conv_place (closest_time ts t).
Proof.
  destruct ts as [|t0 ts]; [reflexivity|]. unfold closest_time. cbn [map]. change (conv t0 :: map conv ts) with (map conv (t0 :: ts)). rewrite existsb_conv, conv_leb.
  destruct (existsb (qeqb t) (t0 :: ts)) eqn:E; [rewrite index_of_conv; now destruct (index_of t (t0 :: ts))|].
  destruct (qleb t t0) eqn:L; [rewrite index_of_conv; now destruct (index_of t0 (t0 :: ts))|].
  rewrite (filter_conv conv _ (fun x => qleb x t)) by (intros x; apply conv_leb). rewrite maxl_conv.
  - rewrite index_of_conv. now destruct (index_of _ (t0 :: ts)).
  - cbn [filter]. destruct (qleb_spec t0 t) as [H|H]; [discriminate|]. exfalso. destruct (qleb_spec t t0) as [H'|H']; [discriminate|]. revert H H'. clear. qlra.
Qed.
Lemma last_conv l x : last (map conv l) (conv x) = conv (last l x).
Proof. revert x. induction l as [|y l IH]; intros x; [reflexivity|]. destruct l as [|z l]; [reflexivity|]. exact (IH x). Qed.
Lemma window_conv ts a b : window (map conv ts) (option_map conv a) (option_map conv b) = option_map (fun x => (conv_place (fst x), conv_place (snd x))) (window ts a b).
Proof.
  unfold window. destruct a as [a|], b as [b|]; cbn [option_map].
  - rewrite !closest_conv. destruct (closest_time ts a), (closest_time ts b); reflexivity.
  - rewrite closest_conv. destruct (closest_time ts a); [|reflexivity]. destruct ts as [|t0 ts]; [reflexivity|]. cbn [map]. change (conv t0 :: map conv ts) with (map conv (t0 :: ts)). rewrite last_conv, map_length. reflexivity.
  - rewrite closest_conv. destruct ts as [|t0 ts]; [reflexivity|]. cbn [map]. destruct (closest_time (t0 :: ts) b); reflexivity.
  - destruct ts as [|t0 ts]; [reflexivity|]. cbn [map]. change (conv t0 :: map conv ts) with (map conv (t0 :: ts)). rewrite last_conv, map_length. reflexivity.
Qed.

(** ** Laplacians *)
Lemma apply_event_conv e b s : apply_event (conv_event e) b s = apply_event e b s.
Proof. reflexivity. Qed.
Lemma row_by_id_conv t id : row_by_id (conv_table t) id = option_map conv_event (row_by_id t id).
Proof. unfold row_by_id, conv_table. induction t as [|r t IH]; [reflexivity|]. cbn. destruct (fst r =? id); [reflexivity|exact IH]. Qed.
Lemma apply_rows_conv t rs : forall s, apply_rows (conv_table t) (conv_grid rs) s = apply_rows t rs s.
Proof.
  induction rs as [|r rs IH]; intros s; [reflexivity|]. cbn [conv_grid map apply_rows]. unfold apply_row. cbn [conv_grid_row g_id g_is_start]. rewrite row_by_id_conv.
  destruct (row_by_id t (g_id r)) as [e|]; [|reflexivity]. cbn [option_map]. rewrite apply_event_conv. apply IH.
Qed.
Lemma lap_groups_conv t g ts : forall s, lap_groups (conv_table t) (conv_grid g) (map conv ts) s = lap_groups t g ts s.
Proof.
  induction ts as [|tk ts IH]; intros s; [reflexivity|]. cbn [map lap_groups]. unfold conv_grid at 1. rewrite (filter_conv conv_grid_row _ (fun r => qeqb (g_time r) tk)) by (intros r; cbn; apply conv_eqb).
  fold (conv_grid (filter (fun r => qeqb (g_time r) tk) g)). rewrite apply_rows_conv. destruct (apply_rows t _ s) as [s'|]; [|reflexivity]. now rewrite IH.
Qed.
Lemma initial_conv t ts k : k <= length ts -> initial_state (conv_table t) (map conv ts) k = initial_state t ts k.
Proof.
  destruct k as [|k]; intros Hk; [reflexivity|]. cbn [initial_state]. rewrite (nth_indep _ 0%num (conv 0%num)) by (rewrite map_length; lia). rewrite map_nth.
  unfold conv_table. rewrite (filter_conv conv_row _ (fun r => going_on (snd r) (nth k ts 0%num))) by (intros r; unfold going_on; cbn; now rewrite conv_leb, conv_ltb).
  generalize lstate0. induction (filter (fun r => going_on (snd r) (nth k ts 0%num)) t) as [|r l IH]; intros s; [reflexivity|]. cbn [map fold_left]. apply (IH (apply_event (snd r) true s)).
Qed.
Lemma index_of_lt x l k : index_of x l = Some k -> k < length l.
Proof. revert k. induction l as [|y l IH]; intros k; cbn; [discriminate|]. destruct (qeqb x y); [intros [= <-]; lia|]. destruct (index_of x l) as [j|]; [|discriminate]. intros [= <-]. specialize (IH j eq_refl). lia. Qed.
Lemma window_start_lt ts a b ta ka x : window ts a b = Some ((ta, ka), x) -> ka <= length ts.
Proof.
  unfold window. destruct (match a with Some t => closest_time ts t | None => match ts with [] => None | t0 :: _ => Some (t0, 0) end end) as [[u k]|] eqn:E; [|discriminate].
  match goal with |- match ?m with _ => _ end = _ -> _ => destruct m as [y|]; [|discriminate] end. intros [= <- <- _]. destruct a as [a|].
  - unfold closest_time in E. destruct ts as [|t0 ts]; [discriminate|]. destruct (index_of _ (t0 :: ts)) as [j|] eqn:EJ; [|discriminate]. injection E as _ <-. apply index_of_lt in EJ. lia.
  - destruct ts; [discriminate|]. injection E as _ <-. lia.
Qed.
Lemma laplacians_conv N g a b : compute_laplacians (conv_net N) (conv_grid g) (option_map conv a) (option_map conv b) = compute_laplacians N g a b.
Proof.
  unfold compute_laplacians. cbn [conv_net rows]. rewrite times_conv, window_conv, ids_ok_conv. destruct (window (times (rows N)) a b) as [[[ta ka] [tb kb]]|] eqn:EW; [|reflexivity]. cbn [option_map fst snd conv_place].
  destruct (ids_ok N); [|reflexivity]. rewrite (filter_conv conv _ (fun t => qleb ta t && qltb t tb)) by (intros t; now rewrite conv_leb, conv_ltb).
  rewrite initial_conv by exact (window_start_lt _ _ _ _ _ _ EW). now rewrite lap_groups_conv.
Qed.
End Unit.
