(** Events, time grids and Laplacians: properties C32-C38, C45, C71-C74. *)
From Verif Require Import Base PartitionModel LouvainModel EventsModel EventsSpec EventsProofs LaplacianProofs MergeProofs InstProofs.

(** * C32: relabelling *)
Definition quads {L} (srcs tgts : list L) (starts ends : list num) : list (L * L * num * num) :=
  combine (combine (combine srcs tgts) starts) ends.
Lemma zip_quads srcs tgts starts ends evs : zip_events srcs tgts starts ends = Some evs ->
  map (fun e => (e_src e, e_tgt e, e_start e, e_end e)) evs = quads srcs tgts starts ends.
Proof.
  unfold quads. revert tgts starts ends evs. induction srcs as [|s srcs IH]; intros [|t tgts] [|a starts] [|b ends] evs H; cbn in H; try discriminate.
  - injection H as <-. reflexivity.
  - destruct (zip_events srcs tgts starts ends) as [r|] eqn:E; [|discriminate]. injection H as <-. cbn. f_equal. now apply IH.
Qed.
Lemma quads_map {L M} (f : L -> M) srcs tgts starts ends :
  map (fun q => (f (fst (fst (fst q))), f (snd (fst (fst q))), snd (fst q), snd q)) (quads srcs tgts starts ends) = quads (map f srcs) (map f tgts) starts ends.
Proof.
  unfold quads. revert tgts starts ends. induction srcs as [|s srcs IH]; intros [|t tgts] [|a starts] [|b ends]; try reflexivity. cbn. f_equal. apply IH.
Qed.
Theorem C32_relabel : forall (L : Type) (leb : L -> L -> bool), total_order leb -> forall srcs tgts : list L,
  exists s t ls, relabel leb srcs tgts = Some (s, t, ls) /\
    (* ids translate back to labels *)
    map (node_to_label ls) s = map Some srcs /\ map (node_to_label ls) t = map Some tgts /\
    (* the mapping is one-to-one and preserves the order *)
    (forall m n a b, node_to_label ls m = Some a -> node_to_label ls n = Some b -> (m < n <-> leb a b = true /\ a <> b)) /\
    (* the network has exactly the ids 0..num_nodes-1, and its table is the list of events *)
    forall fuel reset starts ends N, make_net fuel reset false s t starts ends = Some N ->
      nodes N = seq 0 (length ls) /\ ids_ok N = true /\
      Permutation (map (fun r => (node_to_label ls (e_src (snd r)), node_to_label ls (e_tgt (snd r)), e_start (snd r), e_end (snd r))) (rows N))
                  (quads (map Some srcs) (map Some tgts) starts ends).
Proof.
  intros L leb HO srcs tgts. destruct (relabel_spec leb HO srcs tgts) as (s & t & ls & E & Es & Et & Hr & Hm). exists s, t, ls.
  do 4 (split; [assumption|]). intros fuel reset starts ends N HN. unfold make_net in HN. destruct (build_table reset s t starts ends) as [tab|] eqn:EB; [|discriminate].
  injection HN as <-. cbn [rows nodes]. destruct (build_table_perm _ _ _ _ _ _ EB) as (evs & Ez & HP & _).
  destruct (zip_events_spec _ _ _ _ _ Ez) as (Z1 & Z2 & _).
  assert (HN : node_array tab = seq 0 (length ls)).
  { apply sorted_range; [apply node_array_sorted|]. intros x. rewrite node_array_in, <- Hr, in_app_iff, <- Z1, <- Z2, !in_map_iff. split.
    - intros (e & He & [-> | ->]); apply (Permutation_in _ HP) in He; [left|right]; now exists e.
    - intros [(e & <- & He) | (e & <- & He)]; exists e; (split; [now apply (Permutation_in _ (Permutation_sym HP))|auto]). }
  split; [assumption|]. split.
  - apply ids_ok_spec. unfold num_nodes_of. cbn [rows nodes]. rewrite HN, seq_length. intros e He. apply (Permutation_in _ HP) in He.
    split; apply Hr, in_or_app; [left; rewrite <- Z1|right; rewrite <- Z2]; now apply in_map.
  - rewrite <- Es, <- Et, <- quads_map, <- (zip_quads _ _ _ _ _ Ez), map_map. cbn [fst snd].
    rewrite <- (map_map snd (fun e => (node_to_label ls (e_src e), node_to_label ls (e_tgt e), e_start e, e_end e))). now apply Permutation_map.
Qed.
Example C32_applies : total_order Nat.leb /\ relabel Nat.leb [40; 7] [7; 12] = Some ([2; 0], [0; 1], [7; 12; 40]) /\
  make_net 0 true false [2; 0] [0; 1] [qn 1; qn 0] [qn 2; qn 2] <> None.
Proof.
  split; [|split; [reflexivity|discriminate]]. repeat split.
  - intros a b. rewrite !Nat.leb_le. lia.
  - intros a b c. rewrite !Nat.leb_le. lia.
  - intros a b. rewrite !Nat.leb_le. lia.
Qed.

(** * C33: the time grid *)
Theorem C33_times : forall t, StronglySorted Qclt (times t) /\
  forall x, In x (times t) <-> exists e, In e (map snd t) /\ (x = e_start e \/ x = e_end e).
Proof. intros t. split; [apply times_sorted|apply times_in]. Qed.
Theorem C33_closest : forall t u, t <> [] -> exists k, closest_time (times t) u = Some (nth k (times t) 0%num, k) /\
  k < length (times t) /\ start_index (times t) (Some u) k.
Proof.
  intros t u H. destruct (closest_time_spec (times t) u (times_sorted t) (times_nonempty t H)) as (k & H1 & H2 & H3). exists k. auto.
Qed.
Definition ev (i j a b : nat) : event := mkEv i j (qn a) (qn b) (qn b - qn a)%num.
Example C33_applies : closest_time (times [(0, ev 0 1 1 3); (1, ev 0 1 2 3)]) (qn 5 / qn 2)%num = Some (qn 2, 1).
Proof. vm_compute. repeat f_equal; apply Qc_is_canon; reflexivity. Qed.

(** * C38: durations *)
Theorem C38_durations : forall N s u, ids_ok N = true -> (forall e, In e (map snd (rows N)) -> (e_start e <= e_end e)%num) -> (s <= u)%num ->
  exists A, static_adjacency N (Some s) (Some u) = Some A /\ (forall i j, A i j = A j i) /\
    (forall i j, i <> j -> A i j = contact_time (rows N) i j s u) /\
    (* contacts of a node with itself count twice *)
    (forall i, A i i = (contact_time (rows N) i i s u + contact_time (rows N) i i s u)%num) /\
    forall m B C, (s <= m)%num -> (m <= u)%num -> static_adjacency N (Some s) (Some m) = Some B -> static_adjacency N (Some m) (Some u) = Some C ->
      forall i j, (B i j + C i j)%num = A i j.
Proof.
  intros N s u Hids HOrd Hsu. unfold static_adjacency. rewrite Hids. eexists. split; [reflexivity|]. split; [intros; ring|].
  split; [intros; now apply static_entry|]. split; [intros; now apply static_diag|].
  intros m B C H1 H2 EB EC i j. injection EB as <-. injection EC as <-. destruct (Nat.eq_dec i j) as [-> |Hij].
  - rewrite !static_diag by assumption. rewrite <- (contact_time_split (rows N) j j s m u) by assumption. ring.
  - rewrite !static_entry by assumption. now apply contact_time_split.
Qed.
(** without bounds the window is the whole network *)
Theorem C38_default : forall N, static_adjacency N None None = static_adjacency N (Some (start_time N)) (Some (end_time N)).
Proof. reflexivity. Qed.
Definition net38 : net := mkNet [(0, ev 0 1 0 2); (1, ev 1 0 1 4); (2, ev 1 2 3 5)] [0; 1; 2].
Example C38_applies : ids_ok net38 = true /\ exists A, static_adjacency net38 (Some (qn 1)) (Some (qn 3)) = Some A /\ A 1 0 = qn 3 /\ A 1 2 = qn 0.
Proof. split; [reflexivity|]. eexists. split; [reflexivity|]. split; vm_compute; apply Qc_is_canon; reflexivity. Qed.

(** * C34: Laplacians of lists without overlaps *)
Lemma lap_exact_gen N g a b : rows N <> [] -> ids_ok N = true -> no_self_contact (rows N) -> lasting (rows N) ->
  own_index (rows N) -> is_time_grid (rows N) g ->
  (forall u on i j, (before (rows N) i j u -> on i j = true) -> contact (rows N) i j u -> on_rows (rows N) (group g u) on i j = true) ->
  exists ka kb Ls, compute_laplacians N g a b = Some (ka, kb, Ls) /\ start_index (times (rows N)) a ka /\ stop_index (times (rows N)) b kb /\
    length Ls = kb - ka /\ ka < length (times (rows N)) /\ kb < length (times (rows N)) /\
    forall k u, k < kb - ka -> (nth (ka + k) (times (rows N)) 0 <= u)%num -> (u < nth (S (ka + k)) (times (rows N)) 0)%num ->
      walk_laplacian (num_nodes_of N) (fun i j => contact (rows N) i j u) (nth k Ls (fun _ _ => 0%num)).
Proof.
  intros Hne Hids Hself HL HO HG HStep.
  destruct (laplacians_gen N g a b (fun u on => forall i j, on i j = true <-> before (rows N) i j u) (fun u on => forall i j, on i j = true <-> contact (rows N) i j u)) as (ka & kb & Ls & E & Ha & Hb & Sa & Sb & HLen & HK); auto.
  - intros u on H i j. split.
    + apply step_sound; auto. apply H.
    + apply HStep. apply H.
  - intros u v on Hn H i j. rewrite H. now apply next_before.
  - intros ka on Hka H i j. rewrite H. destruct ka as [|k].
    + split; [contradiction|]. intros (e & He & _ & K & _). assert (Hin : In (e_start e) (times (rows N))) by (apply times_in; eauto).
      apply (In_nth _ _ 0%num) in Hin as (m & Hm & Em). rewrite <- Em in K. destruct m as [|m]; [qlra|].
      pose proof (qsorted_nth (times (rows N)) 0 (S m) 0%num (times_sorted _) ltac:(lia) Hm). qlra.
    + apply next_before. apply next_time_nth; [apply times_sorted|assumption].
  - exists ka, kb, Ls. repeat (split; [assumption|]). intros k u Hk H1 H2. destruct (HK k Hk) as (on & s & W & Hon & ->).
    exists on. split; [|intros; now apply laplacian_walk]. intros i j _ _. rewrite Hon.
    apply (contact_constant (rows N) _ (nth (S (ka + k)) (times (rows N)) 0%num)); [|assumption|assumption]. apply next_time_nth; [apply times_sorted|lia].
Qed.
Lemma lap_exact N g a b : rows N <> [] -> ids_ok N = true -> no_self_contact (rows N) -> lasting (rows N) -> no_overlap (rows N) ->
  own_index (rows N) -> index_by_start (rows N) -> is_time_grid (rows N) g ->
  exists ka kb Ls, compute_laplacians N g a b = Some (ka, kb, Ls) /\ start_index (times (rows N)) a ka /\ stop_index (times (rows N)) b kb /\
    length Ls = kb - ka /\ ka < length (times (rows N)) /\ kb < length (times (rows N)) /\
    forall k u, k < kb - ka -> (nth (ka + k) (times (rows N)) 0 <= u)%num -> (u < nth (S (ka + k)) (times (rows N)) 0)%num ->
      walk_laplacian (num_nodes_of N) (fun i j => contact (rows N) i j u) (nth k Ls (fun _ _ => 0%num)).
Proof. intros. apply lap_exact_gen; auto. intros. eapply step_complete; eauto. Qed.
Lemma make_net_index fuel srcs tgts starts ends N : make_net fuel true false srcs tgts starts ends = Some N -> own_index (rows N) /\ index_by_start (rows N).
Proof.
  unfold make_net. destruct (build_table true srcs tgts starts ends) as [t|] eqn:EB; [|discriminate]. intros [= <-]. destruct (build_table_perm _ _ _ _ _ _ EB) as (_ & _ & _ & HO & HX). auto.
Qed.
Theorem C34_laplacians : forall fuel srcs tgts starts ends N g a b, make_net fuel true false srcs tgts starts ends = Some N ->
  rows N <> [] -> ids_ok N = true -> no_self_contact (rows N) -> lasting (rows N) -> no_overlap (rows N) -> is_time_grid (rows N) g ->
  exists ka kb Ls, compute_laplacians N g a b = Some (ka, kb, Ls) /\ start_index (times (rows N)) a ka /\ stop_index (times (rows N)) b kb /\
    length Ls = kb - ka /\ ka < length (times (rows N)) /\ kb < length (times (rows N)) /\
    forall k u, k < kb - ka -> (nth (ka + k) (times (rows N)) 0 <= u)%num -> (u < nth (S (ka + k)) (times (rows N)) 0)%num ->
      walk_laplacian (num_nodes_of N) (fun i j => contact (rows N) i j u) (nth k Ls (fun _ _ => 0%num)).
Proof. intros fuel srcs tgts starts ends N g a b HN. intros. destruct (make_net_index _ _ _ _ _ _ HN). now apply lap_exact. Qed.
(** a computable grid, used in examples *)
Definition row_leb (a b : grid_row) : bool := (qltb (g_time a) (g_time b) || (qeqb (g_time a) (g_time b) && (g_id a <=? g_id b)))%bool.
Fixpoint grid_insert (x : grid_row) (l : list grid_row) : list grid_row :=
  match l with [] => [x] | y :: r => if row_leb x y then x :: l else y :: grid_insert x r end.
Definition sorted_grid (t : table) : list grid_row := fold_right grid_insert [] (grid_rows t).
Lemma row_leb_spec a b : row_leb a b = true <-> row_le a b.
Proof.
  unfold row_leb, row_le. rewrite orb_true_iff, andb_true_iff, Nat.leb_le. destruct (qltb_spec (g_time a) (g_time b)), (qeqb_spec (g_time a) (g_time b)); intuition congruence.
Qed.
Lemma row_le_trans a b c : row_le a b -> row_le b c -> row_le a c.
Proof. unfold row_le. intros [H|[H1 H2]] [K|[K1 K2]]; [left; qlra|left; rewrite <- K1; assumption|left; rewrite H1; assumption|right; split; [congruence|lia]]. Qed.
Lemma row_le_total a b : row_le a b \/ row_le b a.
Proof.
  unfold row_le. destruct (Qclt_le_dec (g_time a) (g_time b)) as [H|H]; [left; now left|]. destruct (Qclt_le_dec (g_time b) (g_time a)) as [K|K]; [right; now left|].
  assert (g_time a = g_time b) by (apply Qcle_antisym; assumption). destruct (Nat.le_ge_cases (g_id a) (g_id b)); [left|right]; right; split; auto; congruence.
Qed.
Theorem grid_exists : forall t, is_time_grid t (sorted_grid t).
Proof.
  intros t. unfold is_time_grid, sorted_grid. induction (grid_rows t) as [|x l [HP HS]]; [split; constructor|]. cbn [fold_right]. set (m := fold_right grid_insert [] l) in *.
  assert (P : forall n, Permutation (grid_insert x n) (x :: n)). { induction n as [|y n IHn]; [reflexivity|]. cbn [grid_insert]. destruct (row_leb x y); [reflexivity|]. rewrite IHn. apply perm_swap. }
  split; [rewrite P; now constructor|]. clear HP. induction HS as [|y m HS IH F]; cbn [grid_insert]; [repeat constructor|]. rewrite Forall_forall in F. destruct (row_leb x y) eqn:E.
  - apply row_leb_spec in E. constructor; [now constructor; [|rewrite Forall_forall]|]. constructor; [assumption|]. rewrite Forall_forall. intros z Hz. apply (row_le_trans x y z); auto.
  - constructor; [exact IH|]. rewrite Forall_forall. intros z Hz. apply (Permutation_in _ (P m)) in Hz as [<- | Hz]; [|now apply F].
    destruct (row_le_total x y) as [K|K]; [apply row_leb_spec in K; congruence|exact K].
Qed.
Definition lists34 : list nat * list nat * list num * list num := ([0; 2; 0], [1; 1; 1], [qn 3; qn 1; qn 0], [qn 5; qn 4; qn 3]).
Definition net34 : net := mkNet [(0, ev 0 1 0 3); (1, ev 2 1 1 4); (2, ev 0 1 3 5)] [0; 1; 2].
Ltac in_cases := intros; repeat match goal with H : In _ ?l |- _ => (let l' := eval hnf in l in change l with l' in H); cbn [In map snd] in H | H : _ \/ _ |- _ => destruct H | H : False |- _ => destruct H end; subst.
Example C34_applies : make_net 0 true false [0; 2; 0] [1; 1; 1] [qn 3; qn 1; qn 0] [qn 5; qn 4; qn 3] = Some net34 /\
  rows net34 <> [] /\ ids_ok net34 = true /\ no_self_contact (rows net34) /\ lasting (rows net34) /\ no_overlap (rows net34) /\ is_time_grid (rows net34) (sorted_grid (rows net34)).
Proof.
  split; [reflexivity|]. split; [discriminate|]. split; [reflexivity|].
  split; [intros e; in_cases; cbn; lia|]. split; [intros e; in_cases; vm_compute; reflexivity|]. split; [|apply grid_exists].
  intros a b e f i j Ha Hb Hab Je Jf. unfold joins in *. cbn [rows net34 In] in Ha, Hb.
  repeat match goal with H : _ \/ _ |- _ => destruct H | H : False |- _ => destruct H | H : (_, _) = (_, _) |- _ => injection H as <- <- end; cbn [e_src e_tgt ev] in *; try lia.
  all: first [left; vm_compute; discriminate | right; vm_compute; discriminate].
Qed.

(** the matrix is determined by the contacts *)
Lemma walk_laplacian_unique n R R' L L' : walk_laplacian n R L -> walk_laplacian n R' L' -> (forall i j, R i j <-> R' i j) -> forall i j, i < n -> j < n -> L i j = L' i j.
Proof.
  intros (adj & H1 & H2) (adj' & K1 & K2) HR i j Hi Hj. rewrite H2, K2 by assumption.
  assert (E : forall a b, a < n -> b < n -> adj a b = adj' a b). { intros a b Ha Hb. apply eq_true_iff_eq. rewrite H1, K1 by assumption. apply HR. }
  assert (D : degree n adj i = degree n adj' i). { unfold degree. f_equal. apply filter_ext_in. intros x Hx. apply in_seq in Hx. apply E; lia. }
  replace (walk n adj i j) with (walk n adj' i j); [reflexivity|]. unfold walk. rewrite D, E by assumption. reflexivity.
Qed.
(** C76: the order in which the events are listed does not matter *)
Lemma node_array_ext t t' : (forall e, In e (map snd t) <-> In e (map snd t')) -> node_array t = node_array t'.
Proof.
  intros H. assert (U : forall l m, StronglySorted Peano.lt l -> StronglySorted Peano.lt m -> (forall x : nat, In x l <-> In x m) -> l = m).
  { intros l m Hl. revert m. induction Hl as [|a l Hl IH F]; intros m Hm K.
    - destruct m as [|b m]; [reflexivity|]. exfalso. apply (K b). now left.
    - destruct m as [|b m]; [exfalso; apply (K a); now left|]. apply StronglySorted_inv in Hm as [Hm G]. rewrite Forall_forall in F, G.
      assert (a = b). { destruct (proj1 (K a) (or_introl eq_refl)) as [-> | Ha]; [reflexivity|]. destruct (proj2 (K b) (or_introl eq_refl)) as [-> | Hb]; [reflexivity|]. specialize (F _ Hb). specialize (G _ Ha). lia. }
      subst b. f_equal. apply IH; [assumption|]. intros x. split; intros Hx.
      + destruct (proj1 (K x) (or_intror Hx)) as [<- | Hx']; [specialize (F _ Hx); lia|assumption].
      + destruct (proj2 (K x) (or_intror Hx)) as [<- | Hx']; [specialize (G _ Hx); lia|assumption]. }
  apply U; try apply node_array_sorted. intros x. rewrite !node_array_in. split; intros (e & He & Hx); exists e; (split; [now apply H|assumption]).
Qed.
Lemma times_ext t t' : (forall e, In e (map snd t) <-> In e (map snd t')) -> times t = times t'.
Proof. intros H. apply qsorted_unique; try apply times_sorted. intros x. rewrite !times_in. split; intros (e & He & Hx); exists e; (split; [now apply H|assumption]). Qed.
Lemma contact_ext t t' : (forall e, In e (map snd t) <-> In e (map snd t')) -> forall i j u, contact t i j u <-> contact t' i j u.
Proof. intros H i j u. split; intros (e & He & Hx); exists e; (split; [now apply H|assumption]). Qed.
Lemma start_index_unique ts t a b : StronglySorted Qclt ts -> a < length ts -> b < length ts -> start_index ts t a -> start_index ts t b -> a = b.
Proof.
  intros HS La Lb. destruct t as [t|]; cbn; [|congruence]. assert (Hn : forall k, k < length ts -> In (nth k ts 0%num) ts) by (intros; now apply nth_In).
  intros [[A1 A2] | [A1 A2]] [[B1 B2] | [B1 B2]].
  - destruct (Nat.lt_trichotomy a b) as [H|[H|H]]; [|assumption|]; [specialize (A2 b H Lb)|specialize (B2 a H La)]; qlra.
  - specialize (B2 _ (Hn a La)). qlra.
  - specialize (A2 _ (Hn b Lb)). qlra.
  - congruence.
Qed.
Lemma stop_index_unique ts t a b : StronglySorted Qclt ts -> a < length ts -> b < length ts -> stop_index ts t a -> stop_index ts t b -> a = b.
Proof. destruct t as [t|]; [apply start_index_unique|]. cbn. lia. Qed.
Lemma quads_evs srcs tgts starts ends evs : zip_events srcs tgts starts ends = Some evs ->
  evs = map (fun q => mkEv (fst (fst (fst q))) (snd (fst (fst q))) (snd (fst q)) (snd q) (snd q - snd (fst q))%num) (quads srcs tgts starts ends).
Proof.
  unfold quads. revert tgts starts ends evs. induction srcs as [|s srcs IH]; intros [|t tgts] [|a starts] [|b ends] evs H; cbn in H; try discriminate.
  - now injection H as <-.
  - destruct (zip_events srcs tgts starts ends) as [r|] eqn:E; [|discriminate]. injection H as <-. cbn [combine map fst snd]. f_equal. now apply IH.
Qed.
(** disjointness of a pair of events, and lists of pairwise disjoint events *)
Definition apart (e f : event) : Prop := forall i j, joins e i j -> joins f i j -> (e_end e <= e_start f)%num \/ (e_end f <= e_start e)%num.
Lemma pairs_perm l m : Permutation l m -> ForallOrdPairs apart l -> ForallOrdPairs apart m.
Proof.
  assert (S : forall e f, apart e f -> apart f e). { intros e f H i j H1 H2. destruct (H i j H2 H1); auto. }
  induction 1 as [|x l m HP IH|x y l|l m n HP IH HP' IH']; intros H; auto.
  - inversion_clear H as [|? ? F G]. constructor; [|now apply IH]. rewrite Forall_forall in *. intros z Hz. apply F. now apply (Permutation_in _ (Permutation_sym HP)).
  - inversion_clear H as [|? ? F G]. inversion_clear G as [|? ? F' G']. inversion_clear F as [|? ? K1 K2]. constructor; [constructor; auto|]. now constructor.
Qed.
Lemma no_overlap_pairs t : own_index t -> no_overlap t <-> ForallOrdPairs apart (map snd t).
Proof.
  unfold own_index. induction t as [|[a e] t IH]; intros HO; [split; [constructor|intros _ ? ? ? ? ? ? []]|]. cbn [map fst snd] in *. apply NoDup_cons_iff in HO as [Ha HO]. specialize (IH HO). split.
  - intros H. constructor.
    + rewrite Forall_forall. intros f Hf i j H1 H2. apply in_table in Hf as [b Hb]. apply (H a b e f i j); auto; [now left|now right|]. intros ->. apply Ha. apply in_map_iff. now exists (b, f).
    + apply IH. intros b c f f' i j Hb Hc. apply H; now right.
  - intros H. inversion_clear H as [|? ? F G]. rewrite Forall_forall in F. intros b c f f' i j [Hb|Hb] [Hc|Hc] Hbc J1 J2.
    + congruence.
    + injection Hb as <- <-. apply (F f' ltac:(apply in_table; eauto) i j); assumption.
    + injection Hc as <- <-. destruct (F f ltac:(apply in_table; eauto) i j); auto.
    + apply (proj2 IH G b c f f' i j); assumption.
Qed.
Theorem C76_order_of_events : forall fuel srcs tgts starts ends N srcs' tgts' starts' ends' N' g g' a b,
  make_net fuel true false srcs tgts starts ends = Some N -> make_net fuel true false srcs' tgts' starts' ends' = Some N' ->
  Permutation (quads srcs tgts starts ends) (quads srcs' tgts' starts' ends') ->
  rows N <> [] -> ids_ok N = true -> no_self_contact (rows N) -> lasting (rows N) -> no_overlap (rows N) ->
  is_time_grid (rows N) g -> is_time_grid (rows N') g' ->
  nodes N' = nodes N /\ times (rows N') = times (rows N) /\
  exists ka kb Ls Ls', compute_laplacians N g a b = Some (ka, kb, Ls) /\ compute_laplacians N' g' a b = Some (ka, kb, Ls') /\ length Ls' = length Ls /\
    forall k i j, k < length Ls -> i < num_nodes_of N -> j < num_nodes_of N -> nth k Ls' (fun _ _ => 0%num) i j = nth k Ls (fun _ _ => 0%num) i j.
Proof.
  intros fuel srcs tgts starts ends N srcs' tgts' starts' ends' N' g g' a b HN HN' HP Hne Hids Hself HL HV HG HG'.
  destruct (make_net_index _ _ _ _ _ _ HN) as [HO HX]. destruct (make_net_index _ _ _ _ _ _ HN') as [HO' HX'].
  assert (HE : Permutation (map snd (rows N)) (map snd (rows N')) /\ nodes N = nodes N').
  { unfold make_net in HN, HN'. destruct (build_table true srcs tgts starts ends) as [t|] eqn:EB; [|discriminate]. destruct (build_table true srcs' tgts' starts' ends') as [t'|] eqn:EB'; [|discriminate].
    injection HN as <-. injection HN' as <-. cbn [rows nodes]. destruct (build_table_perm _ _ _ _ _ _ EB) as (evs & Ez & P & _). destruct (build_table_perm _ _ _ _ _ _ EB') as (evs' & Ez' & P' & _).
    assert (H : Permutation (map snd t) (map snd t')).
    { rewrite P, P', (quads_evs _ _ _ _ _ Ez), (quads_evs _ _ _ _ _ Ez'). now apply Permutation_map. }
    split; [exact H|]. apply node_array_ext. intros e. split; apply Permutation_in; [assumption|now apply Permutation_sym]. }
  destruct HE as [HQ Hn]. assert (HE : forall e, In e (map snd (rows N)) <-> In e (map snd (rows N'))) by (intros e; split; apply Permutation_in; [assumption|now apply Permutation_sym]).
  assert (HV' : no_overlap (rows N')) by (apply no_overlap_pairs; [assumption|]; apply (pairs_perm _ _ HQ), no_overlap_pairs; assumption).
  split; [now symmetry|]. pose proof (times_ext _ _ HE) as HT. split; [now symmetry|].
  assert (Hne' : rows N' <> []). { intros E. destruct (rows N) as [|[k e] r]; [now apply Hne|]. rewrite E in *. destruct (proj1 (HE e) (or_introl eq_refl)). }
  assert (Hids' : ids_ok N' = true). { rewrite ids_ok_spec in *. unfold num_nodes_of in *. rewrite <- Hn. intros e He. apply Hids. now apply HE. }
  assert (Hself' : no_self_contact (rows N')) by (intros e He; apply Hself; now apply HE).
  assert (HL' : lasting (rows N')) by (intros e He; apply HL; now apply HE).
  destruct (lap_exact N g a b Hne Hids Hself HL HV HO HX HG) as (ka & kb & Ls & E & Sa & Sb & HLen & La & Lb & HK).
  destruct (lap_exact N' g' a b Hne' Hids' Hself' HL' HV' HO' HX' HG') as (ka' & kb' & Ls' & E' & Sa' & Sb' & HLen' & La' & Lb' & HK').
  rewrite <- HT in *. set (ts := times (rows N)) in *. pose proof (times_sorted (rows N)) as HS. fold ts in HS.
  rewrite (start_index_unique ts a ka' ka HS La' La Sa' Sa) in *. rewrite (stop_index_unique ts b kb' kb HS Lb' Lb Sb' Sb) in *.
  exists ka, kb, Ls, Ls'. do 2 (split; [assumption|]). split; [lia|]. intros k i j Hk Hi Hj. rewrite HLen in Hk.
  assert (Hlt : (nth (ka + k) ts 0 < nth (S (ka + k)) ts 0)%num) by (apply qsorted_nth; [assumption|lia|lia]).
  apply (walk_laplacian_unique (num_nodes_of N) (fun i j => contact (rows N') i j (nth (ka + k) ts 0%num)) (fun i j => contact (rows N) i j (nth (ka + k) ts 0%num))); try assumption.
  - unfold num_nodes_of. rewrite Hn. apply HK'; [assumption|qlra|assumption].
  - apply HK; [assumption|qlra|assumption].
  - intros x y. symmetry. now apply contact_ext.
Qed.
Example C76_applies : exists N N', make_net 0 true false [0; 2; 0] [1; 1; 1] [qn 3; qn 1; qn 0] [qn 5; qn 4; qn 3] = Some N /\
  make_net 0 true false [0; 0; 2] [1; 1; 1] [qn 0; qn 3; qn 1] [qn 3; qn 5; qn 4] = Some N' /\ N = net34 /\ N' = net34 /\
  Permutation (quads [0; 2; 0] [1; 1; 1] [qn 3; qn 1; qn 0] [qn 5; qn 4; qn 3]) (quads [0; 0; 2] [1; 1; 1] [qn 0; qn 3; qn 1] [qn 3; qn 5; qn 4]).
Proof.
  exists net34, net34. split; [reflexivity|]. split; [reflexivity|]. do 2 (split; [reflexivity|]). unfold quads. cbn [combine].
  exact (Permutation_app_comm [_; _] [_]).
Qed.

(** * C35: overlapping events of a pair *)
Definition C35_statement : Prop := forall fuel srcs tgts starts ends N g a b ka kb Ls,
  make_net fuel true false srcs tgts starts ends = Some N -> rows N <> [] -> ids_ok N = true -> no_self_contact (rows N) -> lasting (rows N) ->
  is_time_grid (rows N) g -> compute_laplacians N g a b = Some (ka, kb, Ls) ->
  forall k i j, k < length Ls -> i < num_nodes_of N -> j < num_nodes_of N -> i <> j ->
    (nth k Ls (fun _ _ => 0%num) i j <> 0%num <-> contact (rows N) i j (nth (ka + k) (times (rows N)) 0%num)).
Definition net35 : net := mkNet [(0, ev 0 1 0 2); (1, ev 0 1 1 3)] [0; 1].
Theorem C35_overlap_refuted : ~ C35_statement.
Proof.
  intros H. assert (E3 : match compute_laplacians net35 (sorted_grid (rows net35)) None None with Some (k1, k2, l) => (k1, k2, length l, qeqb (nth 2 l (fun _ _ => 0%num) 0 1) 0%num) | None => (5, 5, 5, false) end = (0, 3, 3, true)) by (vm_compute; reflexivity).
  destruct (compute_laplacians net35 (sorted_grid (rows net35)) None None) as [[[ka kb] Ls]|] eqn:E; [|discriminate E3].
  injection E3 as -> -> E3 E2. apply (reflect_iff _ _ (qeqb_spec _ _)) in E2.
  specialize (H 0 [0; 0] [1; 1] [qn 0; qn 1] [qn 2; qn 3] net35 (sorted_grid (rows net35)) None None 0 3 Ls eq_refl ltac:(discriminate) eq_refl).
  specialize (H ltac:(intros e; in_cases; cbn; lia) ltac:(intros e; in_cases; vm_compute; reflexivity) (grid_exists _) E 2 0 1 ltac:(lia) ltac:(cbn; lia) ltac:(cbn; lia) ltac:(lia)).
  apply (proj2 H); [|exact E2]. exists (ev 0 1 1 3). split; [right; now left|]. split; [left; now split|]. split; vm_compute; [discriminate|reflexivity].
Qed.
(** whatever the overlaps, the walkers only move along contacts, and every matrix is a Laplacian of a random walk *)
Lemma lap_sound N g a b : rows N <> [] -> ids_ok N = true -> no_self_contact (rows N) -> own_index (rows N) -> is_time_grid (rows N) g ->
  (forall u on i j, (on i j = true -> before (rows N) i j u) -> on_rows (rows N) (group g u) on i j = true -> contact (rows N) i j u) ->
  exists ka kb Ls, compute_laplacians N g a b = Some (ka, kb, Ls) /\ start_index (times (rows N)) a ka /\ stop_index (times (rows N)) b kb /\
    length Ls = kb - ka /\ ka < length (times (rows N)) /\ kb < length (times (rows N)) /\
    forall k, k < kb - ka -> exists R : nat -> nat -> Prop, (forall i j, R i j -> contact (rows N) i j (nth (ka + k) (times (rows N)) 0%num)) /\
      walk_laplacian (num_nodes_of N) R (nth k Ls (fun _ _ => 0%num)).
Proof.
  intros Hne Hids Hself HO HG HStep.
  destruct (laplacians_gen N g a b (fun u on => forall i j, on i j = true -> before (rows N) i j u) (fun u on => forall i j, on i j = true -> contact (rows N) i j u)) as (ka & kb & Ls & E & Ha & Hb & Sa & Sb & HLen & HK); auto.
  - intros u on H i j. apply HStep, H.
  - intros u v on Hn H i j Hon. eapply next_before; [exact Hn|]. now apply H.
  - intros ka on Hka H i j Hon. apply H in Hon. destruct ka as [|k]; [contradiction|].
    eapply next_before; [|exact Hon]. apply next_time_nth; [apply times_sorted|assumption].
  - exists ka, kb, Ls. repeat (split; [assumption|]). intros k Hk. destruct (HK k Hk) as (on & s & W & Hon & ->).
    exists (fun i j => on i j = true). split; [exact Hon|]. exists on. split; [reflexivity|intros; now apply laplacian_walk].
Qed.
Theorem C35_sound_partial : forall fuel srcs tgts starts ends N g a b, make_net fuel true false srcs tgts starts ends = Some N ->
  rows N <> [] -> ids_ok N = true -> no_self_contact (rows N) -> lasting (rows N) -> is_time_grid (rows N) g ->
  exists ka kb Ls, compute_laplacians N g a b = Some (ka, kb, Ls) /\ start_index (times (rows N)) a ka /\ stop_index (times (rows N)) b kb /\
    length Ls = kb - ka /\ ka < length (times (rows N)) /\ kb < length (times (rows N)) /\
    forall k, k < kb - ka -> exists R : nat -> nat -> Prop, (forall i j, R i j -> contact (rows N) i j (nth (ka + k) (times (rows N)) 0%num)) /\
      walk_laplacian (num_nodes_of N) R (nth k Ls (fun _ _ => 0%num)).
Proof.
  intros fuel srcs tgts starts ends N g a b HN. intros. destruct (make_net_index _ _ _ _ _ _ HN). apply lap_sound; auto. intros. eapply step_sound; eauto.
Qed.
Example C35_applies : make_net 0 true false [0; 0] [1; 1] [qn 0; qn 1] [qn 2; qn 3] = Some net35 /\ lasting (rows net35) /\ no_self_contact (rows net35) /\ ids_ok net35 = true.
Proof. split; [reflexivity|]. split; [intros e; in_cases; vm_compute; reflexivity|]. split; [intros e; in_cases; cbn; lia|reflexivity]. Qed.

(** * C36: every matrix is the Laplacian of a random walk *)
Definition C36_statement : Prop := forall fuel reset srcs tgts starts ends N g a b, make_net fuel reset false srcs tgts starts ends = Some N ->
  rows N <> [] -> ids_ok N = true -> is_time_grid (rows N) g ->
  exists ka kb Ls, compute_laplacians N g a b = Some (ka, kb, Ls) /\ forall k, k < length Ls -> walk_like (num_nodes_of N) (nth k Ls (fun _ _ => 0%num)).
Definition net36 : net := mkNet [(0, ev 0 0 0 2)] [0].
Theorem C36_self_contact_refuted : ~ C36_statement.
Proof.
  intros H. destruct (H 0 true [0] [0] [qn 0] [qn 2] net36 (sorted_grid (rows net36)) None None eq_refl ltac:(discriminate) eq_refl (grid_exists _)) as (ka & kb & Ls & E & HW).
  assert (E3 : match compute_laplacians net36 (sorted_grid (rows net36)) None None with Some (_, _, l) => (length l, qeqb (nth 0 l (fun _ _ => 0%num) 0 0) (1 / qn 2)%num) | None => (5, false) end = (1, true)) by (vm_compute; reflexivity).
  rewrite E in E3. injection E3 as E3 E4. apply (reflect_iff _ _ (qeqb_spec _ _)) in E4. destruct (HW 0 ltac:(lia)) as (_ & HD & _). specialize (HD 0 ltac:(cbn; lia)). rewrite E4 in HD.
  destruct HD as [HD|HD]; vm_compute in HD; discriminate HD.
Qed.
Theorem C36_walk_like_partial : forall fuel reset srcs tgts starts ends N g a b, make_net fuel reset false srcs tgts starts ends = Some N ->
  rows N <> [] -> ids_ok N = true -> no_self_contact (rows N) -> is_time_grid (rows N) g ->
  exists ka kb Ls, compute_laplacians N g a b = Some (ka, kb, Ls) /\ length Ls = kb - ka /\
    forall k, k < length Ls -> walk_like (num_nodes_of N) (nth k Ls (fun _ _ => 0%num)).
Proof.
  intros fuel reset srcs tgts starts ends N g a b HN Hne Hids Hself HG.
  assert (HO : own_index (rows N)). { unfold make_net in HN. destruct (build_table reset srcs tgts starts ends) as [t|] eqn:EB; [|discriminate]. injection HN as <-. now destruct (build_table_perm _ _ _ _ _ _ EB) as (_ & _ & _ & HO & _). }
  destruct (laplacians_gen N g a b (fun _ _ => True) (fun _ _ => True)) as (ka & kb & Ls & E & Ha & Hb & Sa & Sb & HLen & HK); auto.
  exists ka, kb, Ls. split; [assumption|]. split; [assumption|]. rewrite HLen. intros k Hk. destruct (HK k Hk) as (on & s & W & _ & ->).
  apply (walk_like_graph _ on); [apply W|intros; now apply laplacian_walk].
Qed.
Example C36_applies : exists N, make_net 0 false false [0; 0; 2] [1; 1; 1] [qn 1; qn 0; qn 2] [qn 3; qn 2; qn 2] = Some N /\ rows N <> [] /\ ids_ok N = true /\ no_self_contact (rows N).
Proof. exists (mkNet [(1, ev 0 1 0 2); (0, ev 0 1 1 3); (2, ev 2 1 2 2)] [0; 1; 2]). split; [reflexivity|]. split; [discriminate|]. split; [reflexivity|]. intros e; in_cases; cbn; lia. Qed.

(** * C71: events of zero duration *)
Definition C71_statement : Prop := forall fuel srcs tgts starts ends N g a b ka kb Ls,
  make_net fuel true false srcs tgts starts ends = Some N -> rows N <> [] -> ids_ok N = true -> no_self_contact (rows N) -> ordered (rows N) ->
  is_time_grid (rows N) g -> compute_laplacians N g a b = Some (ka, kb, Ls) ->
  forall k i j, k < length Ls -> i < num_nodes_of N -> j < num_nodes_of N -> i <> j -> nth k Ls (fun _ _ => 0%num) i j <> 0%num ->
    contact (rows N) i j (nth (ka + k) (times (rows N)) 0%num).
Definition net71 : net := mkNet [(0, ev 0 1 0 0); (1, ev 1 2 1 2)] [0; 1; 2].
(** the rows of the first event come in the other order, as an unstable sort allows *)
Definition grid71 : list grid_row := [mkRow (qn 0) 0 false; mkRow (qn 0) 0 true; mkRow (qn 1) 1 true; mkRow (qn 2) 1 false].
Lemma grid71_ok : is_time_grid (rows net71) grid71.
Proof.
  split.
  - change (grid_rows (rows net71)) with [mkRow (qn 0) 0 true; mkRow (qn 1) 1 true; mkRow (qn 0) 0 false; mkRow (qn 2) 1 false].
    unfold grid71. etransitivity; [apply perm_swap|]. apply perm_skip. etransitivity; [apply perm_swap|]. reflexivity.
  - unfold grid71. repeat constructor; try (right; now split); left; vm_compute; reflexivity.
Qed.
Theorem C71_zero_duration_refuted : ~ C71_statement.
Proof.
  intros H. assert (E3 : match compute_laplacians net71 grid71 None None with Some (k1, k2, l) => (k1, k2, length l, qeqb (nth 1 l (fun _ _ => 0%num) 0 1) 0%num) | None => (5, 5, 5, true) end = (0, 2, 2, false)) by (vm_compute; reflexivity).
  destruct (compute_laplacians net71 grid71 None None) as [[[ka kb] Ls]|] eqn:E; [|discriminate E3]. injection E3 as -> -> E3 E4.
  assert (E5 : nth 1 Ls (fun _ _ => 0%num) 0 1 <> 0%num). { intros K. apply (reflect_iff _ _ (qeqb_spec _ _)) in K. congruence. }
  specialize (H 0 [0; 1] [1; 2] [qn 0; qn 1] [qn 0; qn 2] net71 grid71 None None 0 2 Ls eq_refl ltac:(discriminate) eq_refl).
  specialize (H ltac:(intros e; in_cases; cbn; lia) ltac:(intros e; in_cases; vm_compute; discriminate) grid71_ok E 1 0 1 ltac:(lia) ltac:(cbn; lia) ltac:(cbn; lia) ltac:(lia) E5).
  destruct H as (e & He & HJ & _ & HA). cbn [net71 rows map snd In] in He. destruct He as [<- | [<- | []]].
  - vm_compute in HA. discriminate.
  - unfold joins in HJ. cbn in HJ. lia.
Qed.
(** when every event's start comes before its end in the grid, as a stable sort guarantees, there is no such effect *)
Definition starts_first (g : list grid_row) : Prop :=
  forall g1 g2 r, g = g1 ++ r :: g2 -> g_is_start r = false -> forall r', In r' g2 -> g_id r' = g_id r -> g_is_start r' = false.
Lemma filter_split {A} (f : A -> bool) : forall l l1 x l2, filter f l = l1 ++ x :: l2 -> exists m1 m2, l = m1 ++ x :: m2 /\ filter f m1 = l1 /\ filter f m2 = l2.
Proof.
  induction l as [|a l IH]; intros l1 x l2 H; cbn in H; [destruct l1; discriminate|]. destruct (f a) eqn:E.
  - destruct l1 as [|b l1]; cbn in H; injection H as H0 H; subst.
    + exists [], l. now repeat split.
    + destruct (IH _ _ _ H) as (m1 & m2 & -> & K1 & K2). exists (b :: m1), m2. cbn. rewrite E, K1. now repeat split.
  - destruct (IH _ _ _ H) as (m1 & m2 & -> & K1 & K2). exists (a :: m1), m2. cbn. rewrite E. now repeat split.
Qed.
Lemma step_sound_stable t g u on i j : is_time_grid t g -> own_index t -> ordered t -> starts_first g -> (on i j = true -> before t i j u) ->
  on_rows t (group g u) on i j = true -> contact t i j u.
Proof.
  intros HG HO HOrd HF Hon H. destruct (on_rows_last t (group g u) i j (group_rows_ok t g u HG HO) on) as [[H1 H2] | (rs1 & r & e & rs2 & E & R1 & R2 & R3 & R4)].
  - rewrite H1 in H. apply (no_rows_before t g i j u HG HO H2). now apply Hon.
  - rewrite R3 in H. assert (Hr : In r (group g u)) by (rewrite E; apply in_or_app; right; now left).
    apply (group_in t g u r HG) in Hr as [Hr Hu]. apply grid_row_in in Hr as (f & Hf & Ef). rewrite H in Ef.
    pose proof (row_by_id_own t _ f HO Hf) as K. unfold row_event in R1. rewrite K in R1. injection R1 as <-.
    exists f. assert (Hin : In f (map snd t)) by (apply in_table; now exists (g_id r)). split; [assumption|split; [assumption|]]. specialize (HOrd f Hin).
    split; [rewrite <- Hu, Ef; qlra|]. destruct (Qclt_le_dec u (e_end f)) as [L|L]; [assumption|]. exfalso.
    (* the end of f is in the same group and comes later *)
    assert (Eu : e_end f = u) by (apply Qcle_antisym; [assumption|rewrite <- Hu, Ef; assumption]).
    assert (Hq : In (mkRow u (g_id r) false) (group g u)).
    { apply (group_in t g u _ HG). split; [|reflexivity]. unfold grid_rows. apply in_or_app. right. apply in_map_iff. exists (g_id r, f). cbn. now rewrite Eu. }
    rewrite E in Hq. apply in_app_iff in Hq as [Hq|[Hq|Hq]].
    + unfold group in E. destruct (filter_split _ _ _ _ _ E) as (m1 & m2 & Eg & M1 & M2). rewrite <- M1 in Hq. apply filter_In in Hq as [Hq _]. apply in_split in Hq as (n1 & n2 & En).
      rewrite En, <- app_assoc in Eg. cbn in Eg. assert (K2 : g_is_start r = false) by (apply (HF n1 (n2 ++ r :: m2) _ Eg eq_refl r); [apply in_or_app; right; now left|reflexivity]). congruence.
    + rewrite Hq in H. discriminate.
    + apply (R4 _ f Hq); [exact K|assumption].
Qed.
Theorem C71_stable_partial : forall fuel srcs tgts starts ends N g a b, make_net fuel true false srcs tgts starts ends = Some N ->
  rows N <> [] -> ids_ok N = true -> no_self_contact (rows N) -> ordered (rows N) -> is_time_grid (rows N) g -> starts_first g ->
  exists ka kb Ls, compute_laplacians N g a b = Some (ka, kb, Ls) /\ start_index (times (rows N)) a ka /\ stop_index (times (rows N)) b kb /\
    length Ls = kb - ka /\ ka < length (times (rows N)) /\ kb < length (times (rows N)) /\
    forall k, k < kb - ka -> exists R : nat -> nat -> Prop, (forall i j, R i j -> contact (rows N) i j (nth (ka + k) (times (rows N)) 0%num)) /\
      walk_laplacian (num_nodes_of N) R (nth k Ls (fun _ _ => 0%num)).
Proof.
  intros fuel srcs tgts starts ends N g a b HN. intros. destruct (make_net_index _ _ _ _ _ _ HN). apply lap_sound; auto. intros. eapply step_sound_stable; eauto.
Qed.
Example C71_applies : make_net 0 true false [0; 1] [1; 2] [qn 0; qn 1] [qn 0; qn 2] = Some net71 /\ ordered (rows net71) /\
  exists g, is_time_grid (rows net71) g /\ starts_first g.
Proof.
  split; [reflexivity|]. split; [intros e; in_cases; vm_compute; discriminate|].
  exists [mkRow (qn 0) 0 true; mkRow (qn 0) 0 false; mkRow (qn 1) 1 true; mkRow (qn 2) 1 false]. split.
  - destruct grid71_ok as [HP _]. split; [rewrite <- HP; apply perm_swap|]. repeat constructor; try (right; now split); left; vm_compute; reflexivity.
  - intros g1 g2 r E Hr r' Hr' Hid. destruct g1 as [|r1 g1]; [injection E as <- <-; discriminate Hr|injection E as _ E].
    destruct g1 as [|r2 g1]; [injection E as <- <-; destruct Hr' as [<- | [<- | []]]; discriminate Hid|injection E as _ E].
    destruct g1 as [|r3 g1]; [injection E as <- <-; discriminate Hr|injection E as _ E].
    destruct g1 as [|r4 g1]; [injection E as <- <-; destruct Hr'|injection E as _ E]. destruct g1; discriminate E.
Qed.

(** * C37: merging overlapping events *)
Lemma make_net_well fuel srcs tgts starts ends N : make_net fuel true false srcs tgts starts ends = Some N -> ordered (rows N) -> ids_ok N = true -> well_made N /\ by_start (rows N).
Proof.
  unfold make_net, build_table. destruct (zip_events srcs tgts starts ends) as [evs|]; [|discriminate]. intros [= <-] HOrd Hids. cbn [rows nodes] in *. split.
  - split; [apply reset_index_reset|]. split; [assumption|]. split; [assumption|]. cbn [rows nodes]. intros e He. split; apply node_array_in; exists e; auto.
  - apply by_start_reset. unfold by_start. generalize (sort_rows_sorted (combine (seq 0 (length evs)) evs)). generalize (sort_rows (combine (seq 0 (length evs)) evs)). clear. induction 1 as [|x t H IH F]; [constructor|constructor; [assumption|]].
    rewrite Forall_forall in *. intros y Hy. now apply ev_le_start, F.
Qed.
Lemma make_net_merge fuel srcs tgts starts ends N : make_net 0 true false srcs tgts starts ends = Some N -> make_net fuel true true srcs tgts starts ends = merge_all fuel N.
Proof. unfold make_net. destruct (build_table true srcs tgts starts ends); [|discriminate]. now intros [= <-]. Qed.
Definition C37_statement : Prop := forall srcs tgts starts ends N, make_net 0 true false srcs tgts starts ends = Some N -> ids_ok N = true -> lasting (rows N) ->
  exists fuel N', make_net fuel true true srcs tgts starts ends = Some N' /\ no_overlap (rows N') /\
    forall i j u, contact (rows N') i j u <-> contact (rows N) i j u.
Definition net37 : net := mkNet [(0, ev 0 1 0 10); (1, ev 0 1 1 2)] [0; 1].
Theorem C37_nested_refuted : ~ C37_statement.
Proof.
  intros H. destruct (H [0; 0] [1; 1] [qn 0; qn 1] [qn 10; qn 2] net37 eq_refl eq_refl) as (fuel & N' & E & _ & HC).
  { intros e He. cbn [net37 rows map snd In] in He. destruct He as [<- | [<- | []]]; vm_compute; reflexivity. }
  rewrite (make_net_merge fuel [0; 0] [1; 1] [qn 0; qn 1] [qn 10; qn 2] net37 eq_refl) in E.
  assert (E2 : merge_all 2 net37 = Some (mkNet [(0, mkEv 0 1 (qn 0) (qn 2) (qn 10 - qn 0)%num)] [0; 1])) by reflexivity.
  pose proof (merge_all_more _ (Nat.max fuel 2) _ _ E ltac:(lia)) as E3. rewrite (merge_all_more _ (Nat.max fuel 2) _ _ E2 ltac:(lia)) in E3. injection E3 as <-.
  destruct (proj2 (HC 0 1 (qn 5))) as (e & He & _ & _ & HA).
  - exists (ev 0 1 0 10). split; [now left|]. split; [left; now split|]. split; vm_compute; [discriminate|reflexivity].
  - cbn [rows map snd In] in He. destruct He as [<- | []]. vm_compute in HA. discriminate.
Qed.
(** for every list of events merging ends, leaves no overlap, keeps the nodes, and invents no contact *)
Theorem C37_sound_partial : forall srcs tgts starts ends N, make_net 0 true false srcs tgts starts ends = Some N -> ids_ok N = true -> ordered (rows N) ->
  (exists N', make_net (S (length (rows N))) true true srcs tgts starts ends = Some N') /\
  forall fuel N', make_net fuel true true srcs tgts starts ends = Some N' ->
    nodes N' = nodes N /\ ids_ok N' = true /\ no_overlap (rows N') /\
    (forall i j u, contact (rows N') i j u -> contact (rows N) i j u) /\
    (forall e', In e' (map snd (rows N')) -> exists e, In e (map snd (rows N)) /\ e_src e' = e_src e /\ e_tgt e' = e_tgt e /\ e_start e' = e_start e) /\
    (* and when overlaps are simple, it loses none *)
    (lasting (rows N) -> simple_overlaps (rows N) -> forall i j u, contact (rows N) i j u -> contact (rows N') i j u).
Proof.
  intros srcs tgts starts ends N HN Hids HOrd. destruct (make_net_well _ _ _ _ _ _ HN HOrd Hids) as [HW HB]. split.
  - rewrite (make_net_merge _ _ _ _ _ N HN). destruct (merge_all_sound (S (length (rows N))) N HW ltac:(lia)) as (N' & E & _). eauto.
  - intros fuel N' HM. rewrite (make_net_merge _ _ _ _ _ N HN) in HM. destruct (merge_all_ok fuel N N' HW HM) as ((_ & _ & I' & _) & En & _ & _ & C1 & V & T).
    do 4 (split; [assumption|]). split; [exact T|]. intros HL HS. now apply (merge_all_simple fuel).
Qed.
Definition net37s : net := mkNet [(0, ev 0 1 0 2); (1, ev 1 0 1 4); (2, ev 2 1 3 5); (3, ev 0 1 4 6)] [0; 1; 2].
Example C37_applies : make_net 0 true false [1; 0; 2; 0] [0; 1; 1; 1] [qn 1; qn 0; qn 3; qn 4] [qn 4; qn 2; qn 5; qn 6] = Some net37s /\ ids_ok net37s = true /\ lasting (rows net37s) /\ simple_overlaps (rows net37s) /\ ~ no_overlap (rows net37s).
Proof.
  assert (D : forall e f, In e (map snd (rows net37s)) -> In f (map snd (rows net37s)) -> same_nodes e f -> overlap e f -> e = f \/ (e = ev 0 1 0 2 /\ f = ev 1 0 1 4) \/ (e = ev 1 0 1 4 /\ f = ev 0 1 0 2)).
  { intros e f He Hf HS [O1 O2]. cbn [net37s rows map snd In] in He, Hf. destruct He as [<- | [<- | [<- | [<- | []]]]], Hf as [<- | [<- | [<- | [<- | []]]]]; auto;
    try (vm_compute in O1; discriminate); try (vm_compute in O2; discriminate); unfold same_nodes, joins in HS; cbn in HS; lia. }
  split; [reflexivity|]. split; [reflexivity|]. split; [|split; [split; [|split]|]].
  - intros e He. cbn [net37s rows map snd In] in He. destruct He as [<- | [<- | [<- | [<- | []]]]]; vm_compute; reflexivity.
  - intros a b e f Ha Hb Hab HS HOv. destruct (D e f) as [-> | [[-> ->] | [-> ->]]]; auto; try (apply in_table; eauto; fail); [|vm_compute; discriminate|vm_compute; discriminate].
    exfalso. cbn [net37s rows In] in Ha, Hb.
    destruct Ha as [Ha|[Ha|[Ha|[Ha|[]]]]], Hb as [Hb|[Hb|[Hb|[Hb|[]]]]]; try (apply Hab; congruence); rewrite <- Ha in Hb || (injection Ha as _ Ha; rewrite <- Ha in Hb); apply (f_equal (fun r => e_start (snd r))) in Hb; vm_compute in Hb; discriminate Hb.
  - intros e f g He Hf Hg S1 S2 O1 O2. destruct (D e f He Hf S1 O1) as [-> | [[-> ->] | [-> ->]]]; [assumption| |]; destruct (D _ g Hf Hg S2 O2) as [<- | [[K ->] | [K ->]]]; try assumption; try discriminate K; split; vm_compute; reflexivity.
  - intros e f He Hf S1 O1 Hlt _. destruct (D e f He Hf S1 O1) as [-> | [[-> ->] | [-> ->]]]; [qlra| |]; [vm_compute; discriminate|vm_compute in Hlt; discriminate].
  - intros H. destruct (H 0 1 (ev 0 1 0 2) (ev 1 0 1 4) 0 1) as [K|K]; try (cbn; tauto); try discriminate; try (left; split; reflexivity); try (right; split; reflexivity); vm_compute in K; now apply K.
Qed.
(** the Laplacians of a merged network describe its contacts *)
Theorem C34_merged : forall fuel srcs tgts starts ends N0 N g a b, make_net 0 true false srcs tgts starts ends = Some N0 ->
  ids_ok N0 = true -> no_self_contact (rows N0) -> lasting (rows N0) ->
  make_net fuel true true srcs tgts starts ends = Some N -> rows N <> [] -> is_time_grid (rows N) g ->
  exists ka kb Ls, compute_laplacians N g a b = Some (ka, kb, Ls) /\ start_index (times (rows N)) a ka /\ stop_index (times (rows N)) b kb /\
    length Ls = kb - ka /\ ka < length (times (rows N)) /\ kb < length (times (rows N)) /\
    forall k u, k < kb - ka -> (nth (ka + k) (times (rows N)) 0 <= u)%num -> (u < nth (S (ka + k)) (times (rows N)) 0)%num ->
      walk_laplacian (num_nodes_of N) (fun i j => contact (rows N) i j u) (nth k Ls (fun _ _ => 0%num)).
Proof.
  intros fuel srcs tgts starts ends N0 N g a b HN Hids Hself HL HM Hne HG.
  assert (HOrd : ordered (rows N0)) by (intros e He; specialize (HL e He); qlra).
  destruct (make_net_well _ _ _ _ _ _ HN HOrd Hids) as [HW HB]. rewrite (make_net_merge _ _ _ _ _ N0 HN) in HM.
  destruct (merge_all_ok fuel N0 N HW HM) as ((R' & _ & I' & _) & En & L' & B' & C1 & V & T). apply lap_exact; auto.
  - intros e' He'. destruct (T e' He') as (e & He & T1 & T2 & _). rewrite T1, T2. now apply Hself.
  - now apply reset_own.
  - rewrite <- (reset_index_id _ R'). apply by_start_index. auto.
Qed.
Example C34_merged_applies : make_net 0 true false [1; 0; 2; 0] [0; 1; 1; 1] [qn 1; qn 0; qn 3; qn 4] [qn 4; qn 2; qn 5; qn 6] = Some net37s /\ no_self_contact (rows net37s) /\
  exists N, make_net 9 true true [1; 0; 2; 0] [0; 1; 1; 1] [qn 1; qn 0; qn 3; qn 4] [qn 4; qn 2; qn 5; qn 6] = Some N /\ length (rows N) = 3.
Proof.
  split; [reflexivity|]. split; [intros e; in_cases; cbn; lia|]. eexists. split; reflexivity.
Qed.

(** * C72, C73: keeping the original index *)
Definition C72_statement : Prop := forall fuel srcs tgts starts ends N N', make_net fuel true true srcs tgts starts ends = Some N ->
  make_net fuel false true srcs tgts starts ends = Some N' -> lasting (rows N) -> ids_ok N = true ->
  forall i j u, contact (rows N') i j u <-> contact (rows N) i j u.
Theorem C72_original_index_refuted : ~ C72_statement.
Proof.
  intros H. specialize (H 3 [2; 0; 0] [3; 1; 1] [qn 5; qn 0; qn 1] [qn 6; qn 2; qn 3] (mkNet [(0, mkEv 0 1 (qn 0) (qn 3) (qn 2 - qn 0)%num); (1, ev 2 3 5 6)] [0; 1; 2; 3])
    (mkNet [(0, mkEv 0 1 (qn 0) (qn 3) (qn 2 - qn 0)%num)] [0; 1; 2; 3]) eq_refl eq_refl).
  destruct (H ltac:(intros e; in_cases; vm_compute; reflexivity) eq_refl 2 3 (qn 5)) as [_ K]. destruct K as (e & He & HJ & _).
  - exists (ev 2 3 5 6). split; [right; now left|]. split; [left; now split|]. split; vm_compute; [discriminate|reflexivity].
  - destruct He as [<- | []]. unfold joins in HJ. cbn in HJ. lia.
Qed.
Theorem C72_unmerged_partial : forall fuel srcs tgts starts ends N N', make_net fuel true false srcs tgts starts ends = Some N ->
  make_net fuel false false srcs tgts starts ends = Some N' ->
  Permutation (map snd (rows N')) (map snd (rows N)) /\ nodes N' = nodes N /\ times (rows N') = times (rows N) /\
  forall i j u, contact (rows N') i j u <-> contact (rows N) i j u.
Proof.
  intros fuel srcs tgts starts ends N N'. unfold make_net. destruct (build_table true srcs tgts starts ends) as [t|] eqn:E; [|discriminate].
  destruct (build_table false srcs tgts starts ends) as [t'|] eqn:E'; [|discriminate]. intros [= <-] [= <-]. cbn [rows nodes].
  destruct (build_table_perm _ _ _ _ _ _ E) as (evs & Ez & P & _). destruct (build_table_perm _ _ _ _ _ _ E') as (evs' & Ez' & P' & _). rewrite Ez in Ez'. injection Ez' as <-.
  assert (HP : Permutation (map snd t') (map snd t)) by now rewrite P, P'.
  assert (HE : forall e, In e (map snd t') <-> In e (map snd t)) by (intros e; split; apply Permutation_in; [assumption|now apply Permutation_sym]).
  split; [assumption|]. split; [now apply node_array_ext|]. split; [now apply times_ext|now apply contact_ext].
Qed.
Example C72_applies : make_net 0 true false [2; 0; 0] [3; 1; 1] [qn 5; qn 0; qn 1] [qn 6; qn 2; qn 3] <> None /\ make_net 0 false false [2; 0; 0] [3; 1; 1] [qn 5; qn 0; qn 1] [qn 6; qn 2; qn 3] <> None.
Proof. split; discriminate. Qed.

Definition C73_statement : Prop := forall fuel reset srcs tgts starts ends N g a b ka kb Ls,
  make_net fuel reset false srcs tgts starts ends = Some N -> rows N <> [] -> ids_ok N = true -> no_self_contact (rows N) -> lasting (rows N) -> no_overlap (rows N) ->
  is_time_grid (rows N) g -> compute_laplacians N g a b = Some (ka, kb, Ls) ->
  forall k, k < length Ls -> walk_laplacian (num_nodes_of N) (fun i j => contact (rows N) i j (nth (ka + k) (times (rows N)) 0%num)) (nth k Ls (fun _ _ => 0%num)).
(** two successive events of a pair, listed in the other order *)
Definition net73 : net := mkNet [(1, ev 0 1 0 1); (0, ev 0 1 1 2)] [0; 1].
Theorem C73_touching_refuted : ~ C73_statement.
Proof.
  intros H. assert (E3 : match compute_laplacians net73 (sorted_grid (rows net73)) None None with Some (k1, k2, l) => (k1, k2, length l, qeqb (nth 1 l (fun _ _ => 0%num) 0 1) 0%num) | None => (5, 5, 5, false) end = (0, 2, 2, true)) by (vm_compute; reflexivity).
  destruct (compute_laplacians net73 (sorted_grid (rows net73)) None None) as [[[ka kb] Ls]|] eqn:E; [|discriminate E3].
  injection E3 as -> -> E3 E2. apply (reflect_iff _ _ (qeqb_spec _ _)) in E2.
  specialize (H 0 false [0; 0] [1; 1] [qn 1; qn 0] [qn 2; qn 1] net73 (sorted_grid (rows net73)) None None 0 2 Ls eq_refl ltac:(discriminate) eq_refl).
  specialize (H ltac:(intros e; in_cases; cbn; lia) ltac:(intros e; in_cases; vm_compute; reflexivity)).
  assert (HV : no_overlap (rows net73)).
  { intros a b e f i j Ha Hb Hab _ _. destruct Ha as [Ha|[Ha|[]]], Hb as [Hb|[Hb|[]]]; try congruence; injection Ha as <- <-; injection Hb as <- <-; [left|right]; vm_compute; discriminate. }
  destruct (H HV (grid_exists _) E 1 ltac:(lia)) as (adj & HA & HLap). specialize (HLap 0 1 ltac:(cbn; lia) ltac:(cbn; lia)). rewrite E2 in HLap.
  assert (HC : contact (rows net73) 0 1 (nth (0 + 1) (times (rows net73)) 0%num)).
  { exists (ev 0 1 1 2). split; [right; now left|]. split; [left; now split|]. split; vm_compute; [discriminate|reflexivity]. }
  apply HA in HC; [|cbn; lia|cbn; lia]. unfold walk in HLap. rewrite HC in HLap. cbn [num_nodes_of net73 nodes length Nat.eqb] in HLap. unfold degree in HLap. cbn [seq filter] in HLap. rewrite HC in HLap.
  destruct (adj 0 0); cbn [length] in HLap; vm_compute in HLap; discriminate HLap.
Qed.
(** the index does not matter for events of a pair that do not even touch *)
Definition no_touch (t : table) : Prop :=
  forall a b e f i j, In (a, e) t -> In (b, f) t -> a <> b -> joins e i j -> joins f i j -> (e_end e < e_start f)%num \/ (e_end f < e_start e)%num.
Lemma step_complete_apart t g u on i j : is_time_grid t g -> own_index t -> lasting t -> no_touch t -> (before t i j u -> on i j = true) ->
  contact t i j u -> on_rows t (group g u) on i j = true.
Proof.
  intros HG HO HL HV Hon HC. destruct (on_rows_last t (group g u) i j (group_rows_ok t g u HG HO) on) as [[H1 H2] | (rs1 & r & e & rs2 & E & R1 & R2 & R3 & R4)].
  - rewrite H1. apply Hon. now apply (no_rows_before t g i j u HG HO H2).
  - rewrite R3. destruct (g_is_start r) eqn:Es; [reflexivity|]. exfalso.
    assert (Hr : In r (group g u)) by (rewrite E; apply in_or_app; right; now left).
    apply (group_in t g u r HG) in Hr as [Hr Hu]. apply grid_row_in in Hr as (e' & He & Ee). rewrite Es in Ee.
    pose proof (row_by_id_own t _ e' HO He) as K. unfold row_event in R1. rewrite K in R1. injection R1 as ->.
    destruct HC as (f & Hf & HJ & F1 & F2). apply in_table in Hf as [b Hb]. pose proof (row_by_id_own t b f HO Hb) as Kb.
    assert (Hne : g_id r <> b). { intros Eb. rewrite Eb in K. rewrite K in Kb. injection Kb as <-. rewrite <- Hu, Ee in F2. qlra. }
    assert (HLe : (e_start e < e_end e)%num) by (apply HL; apply in_table; now exists (g_id r)).
    destruct (HV (g_id r) b e f i j He Hb Hne R2 HJ) as [H|H]; rewrite <- Hu, Ee in F1, F2; qlra.
Qed.
Theorem C73_apart_partial : forall fuel reset srcs tgts starts ends N g a b, make_net fuel reset false srcs tgts starts ends = Some N ->
  rows N <> [] -> ids_ok N = true -> no_self_contact (rows N) -> lasting (rows N) -> no_touch (rows N) -> is_time_grid (rows N) g ->
  exists ka kb Ls, compute_laplacians N g a b = Some (ka, kb, Ls) /\ start_index (times (rows N)) a ka /\ stop_index (times (rows N)) b kb /\
    length Ls = kb - ka /\ ka < length (times (rows N)) /\ kb < length (times (rows N)) /\
    forall k u, k < kb - ka -> (nth (ka + k) (times (rows N)) 0 <= u)%num -> (u < nth (S (ka + k)) (times (rows N)) 0)%num ->
      walk_laplacian (num_nodes_of N) (fun i j => contact (rows N) i j u) (nth k Ls (fun _ _ => 0%num)).
Proof.
  intros fuel reset srcs tgts starts ends N g a b HN. intros.
  assert (HO : own_index (rows N)). { unfold make_net in HN. destruct (build_table reset srcs tgts starts ends) as [t|] eqn:EB; [|discriminate]. injection HN as <-. now destruct (build_table_perm _ _ _ _ _ _ EB) as (_ & _ & _ & HO & _). }
  apply lap_exact_gen; auto. intros. eapply step_complete_apart; eauto.
Qed.
Example C73_applies : exists N, make_net 0 false false [0; 2; 0] [1; 1; 1] [qn 3; qn 1; qn 0] [qn 5; qn 4; qn 2] = Some N /\ map fst (rows N) = [2; 1; 0] /\ lasting (rows N) /\ no_touch (rows N).
Proof.
  exists (mkNet [(2, ev 0 1 0 2); (1, ev 2 1 1 4); (0, ev 0 1 3 5)] [0; 1; 2]). split; [reflexivity|]. split; [reflexivity|]. split; [intros e; in_cases; vm_compute; reflexivity|].
  intros a b e f i j Ha Hb Hab J1 J2. unfold joins in *. destruct Ha as [Ha|[Ha|[Ha|[]]]], Hb as [Hb|[Hb|[Hb|[]]]]; try congruence; injection Ha as <- <-; injection Hb as <- <-; cbn [e_src e_tgt ev] in *; try lia.
  - left. vm_compute. reflexivity.
  - right. vm_compute. reflexivity.
Qed.

(** * C74: durations *)
Definition C74_statement : Prop := forall fuel merge srcs tgts starts ends N, make_net fuel true merge srcs tgts starts ends = Some N ->
  forall e, In e (map snd (rows N)) -> e_dur e = (e_end e - e_start e)%num.
Theorem C74_merged_refuted : ~ C74_statement.
Proof.
  intros H. specialize (H 3 true [0; 0] [1; 1] [qn 0; qn 1] [qn 2; qn 3] (mkNet [(0, mkEv 0 1 (qn 0) (qn 3) (qn 2 - qn 0)%num)] [0; 1]) eq_refl _ (or_introl eq_refl)).
  vm_compute in H. discriminate H.
Qed.
Theorem C74_durations_partial : forall fuel reset srcs tgts starts ends N, make_net fuel reset false srcs tgts starts ends = Some N ->
  forall e, In e (map snd (rows N)) -> e_dur e = (e_end e - e_start e)%num.
Proof.
  intros fuel reset srcs tgts starts ends N HN e He. unfold make_net in HN. destruct (build_table reset srcs tgts starts ends) as [t|] eqn:E; [|discriminate]. injection HN as <-. cbn [rows] in He.
  destruct (build_table_perm _ _ _ _ _ _ E) as (evs & Ez & P & _). apply (Permutation_in _ P) in He. rewrite (quads_evs _ _ _ _ _ Ez) in He. apply in_map_iff in He as (q & <- & _). reflexivity.
Qed.
Example C74_applies : exists N, make_net 0 false false [0; 2; 0] [1; 1; 1] [qn 3; qn 1; qn 0] [qn 5; qn 4; qn 2] = Some N /\ rows N <> [].
Proof. eexists. split; [reflexivity|discriminate]. Qed.

(** * C75: merging keeps at least the first contact of a pair *)
Definition C75_statement : Prop := forall fuel srcs tgts starts ends N N', make_net 0 true false srcs tgts starts ends = Some N -> ids_ok N = true -> lasting (rows N) ->
  make_net fuel true true srcs tgts starts ends = Some N' ->
  forall i j s, contact (rows N) i j s -> (forall u, contact (rows N) i j u -> (s <= u)%num) -> contact (rows N') i j s.
Definition net75 : net := mkNet [(0, ev 0 1 0 2); (1, ev 0 1 0 3); (2, ev 0 1 0 4)] [0; 1].
(** three events of a pair starting together: all are dropped *)
Theorem C75_all_dropped_refuted : ~ C75_statement.
Proof.
  intros H. specialize (H 3 [0; 0; 0] [1; 1; 1] [qn 0; qn 0; qn 0] [qn 2; qn 3; qn 4] net75 (mkNet [] [0; 1]) eq_refl eq_refl ltac:(intros e; in_cases; vm_compute; reflexivity) eq_refl 0 1 (qn 0)).
  destruct H as (e & [] & _).
  - exists (ev 0 1 0 2). split; [now left|]. split; [left; now split|]. split; vm_compute; [discriminate|reflexivity].
  - intros u (e & He & _ & Hu & _). destruct He as [<- | [<- | [<- | []]]]; exact Hu.
Qed.
Theorem C75_first_partial : forall fuel srcs tgts starts ends N N', make_net 0 true false srcs tgts starts ends = Some N -> ids_ok N = true -> lasting (rows N) ->
  make_net fuel true true srcs tgts starts ends = Some N' ->
  forall i j s a e, In (a, e) (rows N) -> joins e i j -> e_start e = s ->
    (* every other event of the pair starts later *)
    (forall b f, In (b, f) (rows N) -> b <> a -> joins f i j -> (s < e_start f)%num) -> contact (rows N') i j s.
Proof.
  intros fuel srcs tgts starts ends N N' HN Hids HL HM i j s a e Ha HJ Hs Hb.
  assert (HOrd : ordered (rows N)) by (intros f Hf; specialize (HL f Hf); qlra).
  destruct (make_net_well _ _ _ _ _ _ HN HOrd Hids) as [HW _]. rewrite (make_net_merge _ _ _ _ _ N HN) in HM.
  destruct (merge_all_ok fuel N N' HW HM) as (_ & _ & L' & _). pose proof (reset_own _ (proj1 HW)) as HO.
  assert (HF : one_first i j s (rows N)).
  { split.
    - assert (P : forall x, In x (filter (firsts i j s) (rows N)) <-> x = (a, e)).
      { intros [b f]. rewrite filter_In, firsts_spec. cbn [snd]. split.
        - intros (H1 & H2 & H3). destruct (Nat.eq_dec b a) as [-> |Hba].
          + pose proof (row_by_id_own _ a f HO H1). pose proof (row_by_id_own _ a e HO Ha). congruence.
          + specialize (Hb b f H1 Hba H2). exfalso. rewrite H3 in Hb. qlra.
        - intros [= -> ->]. auto. }
      assert (HNd : NoDup (filter (firsts i j s) (rows N))) by (apply NoDup_filter; now apply (NoDup_map_inv fst)).
      destruct (filter (firsts i j s) (rows N)) as [|x [|y l]]; [exfalso; now apply (P (a, e))|reflexivity|]. exfalso. apply NoDup_cons_iff in HNd as [HNd _]. apply HNd. left.
      rewrite (proj1 (P x)), (proj1 (P y)); cbn; auto.
    - intros f Hf HJf. apply in_table in Hf as [b Hf]. destruct (Nat.eq_dec b a) as [-> |Hba].
      + pose proof (row_by_id_own _ a f HO Hf). pose proof (row_by_id_own _ a e HO Ha). replace f with e by congruence. rewrite Hs. qlra.
      + specialize (Hb b f Hf Hba HJf). qlra. }
  destruct (merge_all_first i j s fuel N N' HW HF HM) as [H1 _]. destruct (filter (firsts i j s) (rows N')) as [|x l] eqn:E; [discriminate|].
  assert (Hx : In x (filter (firsts i j s) (rows N'))) by (rewrite E; now left). apply filter_In in Hx as [Hx P]. apply firsts_spec in P as [J S].
  exists (snd x). split; [now apply in_map|]. split; [assumption|]. specialize (L' HL (snd x) (in_map snd _ _ Hx)). split; rewrite <- S; qlra.
Qed.
Example C75_applies : exists N, make_net 0 true false [0; 0] [1; 1] [qn 0; qn 1] [qn 10; qn 2] = Some N /\ ids_ok N = true /\ lasting (rows N) /\
  forall b f, In (b, f) (rows N) -> b <> 0 -> joins f 0 1 -> (qn 0 < e_start f)%num.
Proof.
  exists net37. split; [reflexivity|]. split; [reflexivity|]. split; [intros e; in_cases; vm_compute; reflexivity|]. intros b f [H|[H|[]]] Hb _; injection H as <- <-; [now destruct Hb|vm_compute; reflexivity].
Qed.

(** * C45: instantaneous events *)
Lemma Forall2_left {A B} (P Q : A -> B -> Prop) l m : Forall2 (fun a b => P a b /\ Q a b) l m -> Forall2 P l m.
Proof. induction 1 as [|x y l m [Hx _] HF IH]; constructor; assumption. Qed.
Theorem C45_instantaneous : forall reset srcs tgts starts, starts <> [] -> length srcs = length starts -> length tgts = length starts ->
  exists N ends, make_inst_net reset srcs tgts starts = Some N /\
    (* every event ends at the next distinct starting time, the last ones one unit later *)
    Forall2 (is_next starts) starts ends /\
    Permutation (map (fun r => (e_src (snd r), e_tgt (snd r), e_start (snd r), e_end (snd r))) (rows N)) (quads srcs tgts starts ends) /\
    (forall e, In e (map snd (rows N)) -> e_dur e = 1%num) /\
    (* so that the times are those of the events and one more *)
    (forall x, In x (times (rows N)) <-> In x starts \/ exists m, In m starts /\ (forall y, In y starts -> (y <= m)%num) /\ x = (m + 1)%num) /\
    (* and each Laplacian describes the events of its time *)
    (ids_ok N = true -> no_self_contact (rows N) -> forall g a b, is_time_grid (rows N) g ->
      exists ka kb Ls, inst_laplacians N g a b = Some (ka, kb, Ls) /\ start_index (times (rows N)) a ka /\ stop_index (times (rows N)) b kb /\ length Ls = kb - ka /\
        forall k, k < kb - ka -> walk_laplacian (num_nodes_of N) (fun i j => starting (rows N) i j (nth (ka + k) (times (rows N)) 0%num)) (nth k Ls (fun _ _ => 0%num))).
Proof.
  intros reset srcs tgts starts Hne H1 H2. destruct (make_inst_net_spec reset srcs tgts starts Hne H1 H2) as (N & t & evs & ends & E & Ee & Ez & Eb & P & HO & Hn & Hr & HF).
  exists N, ends. split; [assumption|]. split; [exact (Forall2_left _ _ _ _ HF)|]. split; [|split; [|split]].
  - rewrite Hr, map_map. cbn [snd e_src e_tgt e_start e_end]. rewrite <- (map_map snd (fun e => (e_src e, e_tgt e, e_start e, e_end e))), <- (zip_quads _ _ _ _ _ Ez). now apply Permutation_map.
  - rewrite Hr, map_map. cbn [snd]. intros e He. apply in_map_iff in He as (r & <- & _). reflexivity.
  - destruct (zip_events_spec _ _ _ _ _ Ez) as (_ & _ & Z3 & Z4 & _).
    assert (HE : forall e, In e evs -> is_next starts (e_start e) (e_end e)).
    { assert (HE : Forall2 (is_next starts) (map e_start evs) (map e_end evs)) by (rewrite Z3, Z4; exact (Forall2_left _ _ _ _ HF)).
      clear - HE. induction evs as [|e evs IH]; [intros ? []|]. inversion_clear HE. intros f [<- | Hf]; auto. }
    assert (HT : forall x, In x (times (rows N)) <-> exists e, In e evs /\ (x = e_start e \/ x = e_end e)).
    { intros x. rewrite times_in, Hr, map_map. cbn [snd]. split.
      - intros (e & He & Hx). apply in_map_iff in He as (r & <- & Hr'). exists (snd r). split; [|exact Hx]. apply (Permutation_in _ P). now apply in_map.
      - intros (e & He & Hx). apply (Permutation_in _ (Permutation_sym P)) in He. apply in_map_iff in He as (r & <- & Hr'). eexists. split; [apply in_map_iff; exists r; now split|exact Hx]. }
    intros x. rewrite HT. rewrite <- Z3 at 1. split.
    + intros (e & He & [-> | ->]); [left; now apply in_map|]. destruct (HE e He) as [(Hin & _) | [-> Hm]]; [left; now rewrite Z3|]. right. exists (e_start e). split; [rewrite <- Z3; now apply in_map|auto].
    + intros [Hx | (m & Hm & Hmax & ->)]; [apply in_map_iff in Hx as (e & <- & He); exists e; auto|]. rewrite <- Z3 in Hm. apply in_map_iff in Hm as (e & <- & He). exists e. split; [assumption|right].
      destruct (HE e He) as [(Hin & Hlt & _) | [-> _]]; [|reflexivity]. specialize (Hmax _ Hin). exfalso. qlra.
  - intros Hids Hself g a b HG. apply inst_laplacians_spec; auto. rewrite Hr. intros K. apply map_eq_nil in K. subst t. apply Permutation_nil in P. subst evs. destruct srcs; [destruct starts; [now apply Hne|discriminate]|]. destruct tgts, starts, ends; cbn in Ez; try discriminate. destruct (zip_events _ _ _ _); discriminate.
Qed.
Definition net45 : net := mkNet [(0, mkEv 0 1 (qn 0) (qn 2) 1%num); (1, mkEv 1 2 (qn 0) (qn 2) 1%num); (2, mkEv 0 2 (qn 2) (qn 2 + 1)%num 1%num)] [0; 1; 2].
Example C45_applies : make_inst_net true [0; 0; 1] [2; 1; 2] [qn 2; qn 0; qn 0] = Some net45 /\ ids_ok net45 = true /\ no_self_contact (rows net45) /\ is_time_grid (rows net45) (sorted_grid (rows net45)).
Proof. split; [reflexivity|]. split; [reflexivity|]. split; [intros e; in_cases; cbn; lia|apply grid_exists]. Qed.


Print Assumptions C32_relabel.
Print Assumptions C33_times.
Print Assumptions C33_closest.
Print Assumptions C38_durations.
Print Assumptions C38_default.
Print Assumptions C34_laplacians.
Print Assumptions C76_order_of_events.
Print Assumptions C35_overlap_refuted.
Print Assumptions C35_sound_partial.
Print Assumptions C36_self_contact_refuted.
Print Assumptions C36_walk_like_partial.
Print Assumptions C71_zero_duration_refuted.
Print Assumptions C71_stable_partial.
Print Assumptions C37_nested_refuted.
Print Assumptions C37_sound_partial.
Print Assumptions C34_merged.
Print Assumptions C72_original_index_refuted.
Print Assumptions C72_unmerged_partial.
Print Assumptions C73_touching_refuted.
Print Assumptions C73_apart_partial.
Print Assumptions C74_merged_refuted.
Print Assumptions C74_durations_partial.
Print Assumptions C75_all_dropped_refuted.
Print Assumptions C75_first_partial.
Print Assumptions C45_instantaneous.
