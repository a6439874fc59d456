(** Lemmas for C192: the numbers of the nodes do not matter. *)
From Verif Require Import Base PartitionModel PartitionSpec LouvainModel LouvainSpec EventsModel EventsSpec EventsProofs LaplacianProofs TransModel TransSpec MatProofs FlowModel FlowSpec FlowProofs RenameSpec.
Local Open Scope bool_scope.

Lemma NoDup_map_inj_in {A B} (f : A -> B) l : (forall x y, In x l -> In y l -> f x = f y -> x = y) -> NoDup l -> NoDup (map f l).
Proof.
  intros H HN. induction HN as [|x l Hx HN IH]; constructor.
  - intros Hin. apply in_map_iff in Hin. destruct Hin as (y & E & Hy). apply Hx. rewrite <- (H y x); [exact Hy|now right|now left|exact E].
  - apply IH. intros a b Ha Hb. apply H; now right.
Qed.
Section Rename.
Context (n : nat) (s t : nat -> nat) (HR : renaming n s t).
Lemma s_lt i : i < n -> s i < n. Proof. intros H. now apply HR. Qed.
Lemma t_lt i : i < n -> t i < n. Proof. intros H. now apply HR. Qed.
Lemma t_s i : i < n -> t (s i) = i. Proof. intros H. now apply HR. Qed.
Lemma s_t i : i < n -> s (t i) = i. Proof. intros H. now apply HR. Qed.
Lemma s_inj i j : i < n -> j < n -> s i = s j -> i = j.
Proof. intros Hi Hj E. rewrite <- (t_s i Hi), <- (t_s j Hj). now rewrite E. Qed.
Lemma s_eqb i j : i < n -> j < n -> (s i =? s j) = (i =? j).
Proof. intros Hi Hj. destruct (Nat.eqb_spec i j) as [-> |H]; [apply Nat.eqb_refl|]. apply Nat.eqb_neq. intros E. apply H. now apply s_inj. Qed.
Lemma perm_t : Permutation (map t (seq 0 n)) (seq 0 n).
Proof.
  apply NoDup_Permutation_bis.
  - apply NoDup_map_inj_in; [|apply seq_NoDup]. intros i j Hi Hj E. apply in_seq in Hi, Hj. rewrite <- (s_t i), <- (s_t j) by lia. now rewrite E.
  - rewrite map_length. lia.
  - intros x Hx. apply in_map_iff in Hx. destruct Hx as (i & <- & Hi). apply in_seq in Hi. apply in_seq. assert (H := t_lt i). lia.
Qed.
Lemma sumN_renamed f : sumN n (fun i => f (t i)) = sumN n f.
Proof. unfold sumN. rewrite <- (sumL_perm f _ _ perm_t). now rewrite sumL_map. Qed.

(** ** matrices *)
Lemma renamed_mmul A B : eqm n (mmul n (renamed t A) (renamed t B)) (renamed t (mmul n A B)).
Proof. intros i j Hi Hj. unfold mmul, renamed. apply (sumN_renamed (fun k => A (t i) k * B k (t j))%num). Qed.
Lemma renamed_ext A B : eqm n A B -> eqm n (renamed t A) (renamed t B).
Proof. intros H i j Hi Hj. apply H; now apply t_lt. Qed.
Lemma renamed_ident : eqm n ident (renamed t ident).
Proof.
  intros i j Hi Hj. unfold ident, renamed. destruct (Nat.eqb_spec i j) as [-> |H]; [now rewrite Nat.eqb_refl|].
  destruct (Nat.eqb_spec (t i) (t j)) as [E|]; [|reflexivity]. exfalso. apply H. rewrite <- (s_t i Hi), <- (s_t j Hj). now rewrite E.
Qed.
Lemma renamed_chain l l' : Forall2 (fun A B => eqm n B (renamed t A)) l l' -> eqm n (chain n l') (renamed t (chain n l)).
Proof.
  intros H. induction H as [|A B l l' HA H IH]; cbn [chain]; [apply renamed_ident|]. eapply eqm_trans; [|apply renamed_mmul]. now apply mmul_ext.
Qed.
Lemma renamed_stochastic A : stochastic n A -> stochastic n (renamed t A).
Proof. intros [H1 H2]. split; [intros i j Hi Hj; apply H1; now apply t_lt|]. intros i Hi. change (sumN n (fun j => A (t i) (t j)) = 1%num). rewrite (sumN_renamed (A (t i))). apply H2. now apply t_lt. Qed.

(** ** covariances *)
Lemma renamed_cov p p' T T' : (forall i, i < n -> p' i = p (t i)) -> eqm n T' (renamed t T) -> eqm n (flow_cov n p' T') (renamed t (flow_cov n p T)).
Proof.
  intros Hp HT i j Hi Hj. unfold flow_cov, renamed.
  assert (HA : forall k, k < n -> at_end n p' T' k = at_end n p T (t k)).
  { intros k Hk. unfold at_end. rewrite <- (sumN_renamed (fun i => p i * T i (t k))%num). apply sumN_ext. intros a Ha. now rewrite Hp, HT. }
  rewrite !Hp by assumption. f_equal. rewrite <- (sumN_renamed (fun k => if qeqb (at_end n p T k) 0 then 0 else p (t i) * T (t i) k * (p (t j) * T (t j) k) / at_end n p T k))%num.
  apply sumN_ext. intros k Hk. rewrite HA, !HT by assumption. reflexivity.
Qed.
Lemma renamed_average p p' T T' ts m : (forall i, i < n -> p' i = p (t i)) -> (forall k, k < m -> eqm n (T' k) (renamed t (T k))) ->
  eqm n (time_average n p' T' ts m) (renamed t (time_average n p T ts m)).
Proof.
  intros Hp HT i j Hi Hj. unfold time_average, renamed. f_equal. apply sumN_ext. intros k Hk. f_equal. now apply renamed_cov with (i := i) (j := j) (T := T k); [| apply HT| |].
Qed.

(** ** stability *)
Lemma sameb_together p i j : sameb p i j = true <-> together p i j.
Proof.
  unfold sameb, together, in_cluster. rewrite existsb_exists. split.
  - intros (c & Hc & H). apply andb_true_iff in H. destruct H as [H1 H2]. apply memb_In in H1, H2. apply In_nth_error in Hc. destruct Hc as [k Hk]. exists k. split; now exists c.
  - intros (k & (c & Hk & H1) & (c' & Hk' & H2)). assert (c' = c) by congruence. subst c'. exists c. split; [now apply nth_error_In in Hk|]. apply andb_true_iff. split; now apply memb_In.
Qed.
Lemma renamed_stability A p q : num_nodes p = n -> num_nodes q = n -> (forall x y, x < n -> y < n -> (together q (s x) (s y) <-> together p x y)) ->
  stability (renamed t A) q = stability A p.
Proof.
  intros Hp Hq H. unfold stability. rewrite Hp, Hq. rewrite <- (sumN_renamed (fun i => sumN n (fun j => if sameb p i j then A i j else 0%num))). apply sumN_ext. intros i Hi.
  rewrite <- (sumN_renamed (fun j => if sameb p (t i) j then A (t i) j else 0%num)). apply sumN_ext. intros j Hj. unfold renamed.
  assert (E : sameb q i j = sameb p (t i) (t j)).
  { apply eq_true_iff_eq. rewrite !sameb_together. rewrite <- H by now apply t_lt. now rewrite !s_t. }
  now rewrite E.
Qed.

(** ** networks *)
Definition ren_event (e : event) : event := mkEv (s (e_src e)) (s (e_tgt e)) (e_start e) (e_end e) (e_dur e).
Definition ren_row (r : nat * event) : nat * event := (fst r, ren_event (snd r)).
Definition ren_table (tb : table) : table := map ren_row tb.
Lemma filter_ren {A B} (f : A -> B) (P : B -> bool) (Q : A -> bool) l : (forall x, P (f x) = Q x) -> filter P (map f l) = map f (filter Q l).
Proof. intros H. induction l as [|x l IH]; [reflexivity|]. cbn. rewrite H, IH. now destruct (Q x). Qed.
Lemma zip_ren srcs : forall tgts starts ends, zip_events (map s srcs) (map s tgts) starts ends = option_map (map ren_event) (zip_events srcs tgts starts ends).
Proof.
  induction srcs as [|x srcs IH]; intros [|y tgts] [|a starts] [|b ends]; try reflexivity. cbn [zip_events map]. rewrite IH. now destruct (zip_events srcs tgts starts ends).
Qed.
Lemma insert_ren x tb : row_insert (ren_row x) (ren_table tb) = ren_table (row_insert x tb).
Proof. induction tb as [|y tb IH]; [reflexivity|]. cbn [ren_table map row_insert]. fold (ren_table tb). cbn [ren_row snd]. change (ev_leb (ren_event (snd x)) (ren_event (snd y))) with (ev_leb (snd x) (snd y)). destruct (ev_leb (snd x) (snd y)); [reflexivity|]. cbn [ren_table map]. f_equal. exact IH. Qed.
Lemma sort_ren tb : sort_rows (ren_table tb) = ren_table (sort_rows tb).
Proof. unfold sort_rows. induction tb as [|x tb IH]; [reflexivity|]. cbn [ren_table map fold_right]. fold (ren_table tb). rewrite IH. apply insert_ren. Qed.
Lemma combine_ren l evs : combine l (map ren_event evs) = ren_table (combine l evs).
Proof. revert evs. induction l as [|x l IH]; intros [|e evs]; [reflexivity..|]. cbn. now rewrite IH. Qed.
Lemma snd_ren tb : map snd (ren_table tb) = map ren_event (map snd tb).
Proof. unfold ren_table. now rewrite !map_map. Qed.
Lemma reset_ren tb : reset_index (ren_table tb) = ren_table (reset_index tb).
Proof. unfold reset_index. rewrite snd_ren, <- combine_ren. unfold ren_table. now rewrite map_length. Qed.
Lemma build_ren reset srcs tgts starts ends : build_table reset (map s srcs) (map s tgts) starts ends = option_map ren_table (build_table reset srcs tgts starts ends).
Proof.
  unfold build_table. rewrite zip_ren. destruct (zip_events srcs tgts starts ends) as [evs|]; [|reflexivity]. cbn. rewrite map_length, combine_ren, sort_ren.
  destruct reset; [now rewrite reset_ren|reflexivity].
Qed.
Definition ids_below (tb : table) : Prop := forall e, In e (map snd tb) -> e_src e < n /\ e_tgt e < n.
Lemma nodes_ren tb : length (node_array tb) = n -> ids_below tb -> length (node_array (ren_table tb)) = n.
Proof.
  intros HL HB. assert (HN : NoDup (node_array tb)).
  { clear HL HB. assert (H := node_array_sorted tb). induction H as [|x l H IH HF]; [constructor|]. constructor; [|exact IH]. intros Hx. rewrite Forall_forall in HF. specialize (HF x Hx). lia. }
  assert (HI : forall x, x < n -> In x (node_array tb)).
  { intros x Hx. apply (NoDup_length_incl HN (l' := seq 0 n)); [rewrite seq_length; lia| |apply in_seq; lia].
    intros y Hy. apply node_array_in in Hy. destruct Hy as (e & He & Hy). apply HB in He. apply in_seq. destruct Hy as [-> | ->]; lia. }
  rewrite (sorted_range (node_array (ren_table tb)) n); [apply seq_length|apply node_array_sorted|]. intros x. rewrite node_array_in, snd_ren. split.
  - intros (e' & He & Hx). apply in_map_iff in He. destruct He as (e & <- & He). apply HB in He. cbn in Hx. destruct Hx as [-> | ->]; now apply s_lt.
  - intros Hx. assert (H := HI (t x) (t_lt x Hx)). apply node_array_in in H. destruct H as (e & He & Ht). exists (ren_event e). split; [now apply in_map|]. cbn.
    destruct Ht as [<- | <-]; [left|right]; symmetry; now apply s_t.
Qed.
(** states of the matrices *)
Definition same_state (a b : lstate) : Prop := (forall i j, i < n -> j < n -> l_A b (s i) (s j) = l_A a i j) /\
  forall i, i < n -> l_deg b (s i) = l_deg a i /\ l_S b (s i) = l_S a i /\ l_D b (s i) = l_D a i.
Lemma same_set1 f g i v w : i < n -> v = w -> (forall k, k < n -> g (s k) = f k) -> forall k, k < n -> set1 g (s i) w (s k) = set1 f i v k.
Proof. intros Hi -> H k Hk. unfold set1. rewrite s_eqb by assumption. destruct (k =? i); [reflexivity|now apply H]. Qed.
Lemma same_set2 A B i j v : i < n -> j < n -> (forall a b, a < n -> b < n -> B (s a) (s b) = A a b) -> forall a b, a < n -> b < n -> set2 B (s i) (s j) v (s a) (s b) = set2 A i j v a b.
Proof. intros Hi Hj H a b Ha Hb. unfold set2. rewrite !s_eqb by assumption. destruct ((a =? i) && (b =? j)); [reflexivity|now apply H]. Qed.
Lemma same_connect i j a b : i < n -> j < n -> same_state a b -> same_state (connect i j a) (connect (s i) (s j) b).
Proof.
  intros Hi Hj [H1 H2]. unfold connect. rewrite H1 by assumption. destruct (negb (qeqb (l_A a i j) 1%num)); [|now split]. split; cbn [l_A l_deg l_S l_D].
  - apply same_set2; try assumption. now apply same_set2.
  - intros k Hk. split; [|now split; apply H2].
    assert (HD : forall k, k < n -> set1 (l_deg b) (s i) (l_deg b (s i) + 1)%num (s k) = set1 (l_deg a) i (l_deg a i + 1)%num k).
    { apply same_set1; [assumption|now rewrite (proj1 (H2 i Hi))|]. intros m Hm. now apply H2. }
    apply same_set1; [assumption|now rewrite HD|exact HD|assumption].
Qed.
Lemma same_disconnect i j a b : i < n -> j < n -> same_state a b -> same_state (disconnect i j a) (disconnect (s i) (s j) b).
Proof.
  intros Hi Hj [H1 H2]. unfold disconnect. rewrite H1 by assumption. destruct (qltb 0%num (l_A a i j)); [|now split]. split; cbn [l_A l_deg l_S l_D].
  - apply same_set2; try assumption. now apply same_set2.
  - intros k Hk. split; [|now split; apply H2].
    assert (HD : forall k, k < n -> set1 (l_deg b) (s i) (l_deg b (s i) - 1)%num (s k) = set1 (l_deg a) i (l_deg a i - 1)%num k).
    { apply same_set1; [assumption|now rewrite (proj1 (H2 i Hi))|]. intros m Hm. now apply H2. }
    apply same_set1; [assumption|now rewrite HD|exact HD|assumption].
Qed.
Lemma same_refresh i a b : i < n -> same_state a b -> same_state (refresh i a) (refresh (s i) b).
Proof.
  intros Hi [H1 H2]. unfold refresh. rewrite (proj1 (H2 i Hi)). destruct (qeqb (l_deg a i) 0%num); (split; [exact H1|]); cbn [l_A l_deg l_S l_D]; intros k Hk;
    (split; [now apply H2|]); (split; apply same_set1; try assumption; try reflexivity; intros m Hm; now apply H2).
Qed.
Lemma same_apply e b x y : e_src e < n -> e_tgt e < n -> same_state x y -> same_state (apply_event e b x) (apply_event (ren_event e) b y).
Proof. intros H1 H2 H. unfold apply_event. cbn [ren_event e_src e_tgt]. apply same_refresh; [assumption|]. apply same_refresh; [assumption|]. destruct b; [now apply same_connect|now apply same_disconnect]. Qed.
Lemma same_lstate0 : same_state lstate0 lstate0. Proof. now split. Qed.
Lemma same_laplacian a b : same_state a b -> eqm n (laplacian b) (renamed t (laplacian a)).
Proof.
  intros [H1 H2] i j Hi Hj. assert (Ti := t_lt i Hi). assert (Tj := t_lt j Hj). destruct (H2 (t i) Ti) as (_ & ES & ED). assert (EA := H1 (t i) (t j) Ti Tj).
  assert (EQ := s_eqb (t i) (t j) Ti Tj). rewrite !s_t in * by assumption. unfold laplacian, renamed, delta. rewrite EA, ES, ED, EQ. reflexivity.
Qed.
Lemma row_by_id_ren tb id : row_by_id (ren_table tb) id = option_map ren_event (row_by_id tb id).
Proof. unfold row_by_id, ren_table. induction tb as [|r tb IH]; [reflexivity|]. cbn. destruct (fst r =? id); [reflexivity|exact IH]. Qed.
Lemma row_by_id_in tb id e : row_by_id tb id = Some e -> In e (map snd tb).
Proof. unfold row_by_id. destruct (find (fun r => fst r =? id) tb) as [r|] eqn:E; [|discriminate]. intros [= <-]. apply find_some in E. apply in_map. now destruct E. Qed.
Definition both {A} (R : A -> A -> Prop) (x y : option A) : Prop := match x, y with Some a, Some b => R a b | None, None => True | _, _ => False end.
Lemma same_rows tb (HB : ids_below tb) rs : forall x y, same_state x y -> both same_state (apply_rows tb rs x) (apply_rows (ren_table tb) rs y).
Proof.
  induction rs as [|r rs IH]; intros x y H; [exact H|]. cbn [apply_rows]. unfold apply_row. rewrite row_by_id_ren. destruct (row_by_id tb (g_id r)) as [e|] eqn:E; [|exact I]. cbn [option_map].
  apply IH. apply row_by_id_in in E. apply HB in E. now apply same_apply.
Qed.
Lemma same_groups tb g (HB : ids_below tb) ts : forall x y, same_state x y -> both (Forall2 (fun L L' => eqm n L' (renamed t L))) (lap_groups tb g ts x) (lap_groups (ren_table tb) g ts y).
Proof.
  induction ts as [|u ts IH]; intros x y H; [constructor|]. cbn [lap_groups]. assert (HX := same_rows tb HB (filter (fun r => qeqb (g_time r) u) g) x y H).
  destruct (apply_rows tb _ x) as [x'|], (apply_rows (ren_table tb) _ y) as [y'|]; cbn in HX; try contradiction; [|exact I]. specialize (IH x' y' HX).
  destruct (lap_groups tb g ts x'), (lap_groups (ren_table tb) g ts y'); cbn in IH |- *; try contradiction; [|exact I]. constructor; [now apply same_laplacian|exact IH].
Qed.
Lemma same_initial tb ts k (HB : ids_below tb) : same_state (initial_state tb ts k) (initial_state (ren_table tb) ts k).
Proof.
  destruct k as [|k]; [apply same_lstate0|]. cbn [initial_state]. unfold ren_table. rewrite (filter_ren ren_row _ (fun r => going_on (snd r) (nth k ts 0%num))) by reflexivity.
  assert (HF : forall r, In r (filter (fun r => going_on (snd r) (nth k ts 0%num)) tb) -> e_src (snd r) < n /\ e_tgt (snd r) < n).
  { intros r Hr. apply filter_In in Hr. apply HB, in_map. now destruct Hr. }
  assert (H := same_lstate0). revert H HF. generalize lstate0 at 1 3. generalize lstate0. induction (filter (fun r => going_on (snd r) (nth k ts 0%num)) tb) as [|r l IH]; intros y x H HF; [exact H|].
  cbn [map fold_left]. apply IH; [|intros q Hq; apply HF; now right]. destruct (HF r (or_introl eq_refl)). now apply same_apply.
Qed.
Lemma grid_rows_ren tb : grid_rows (ren_table tb) = grid_rows tb.
Proof. unfold grid_rows, ren_table. now rewrite !map_map. Qed.
Lemma times_ren tb : times (ren_table tb) = times tb.
Proof. unfold times. now rewrite grid_rows_ren. Qed.
Lemma ids_ok_below N : num_nodes_of N = n -> (ids_ok N = true <-> ids_below (rows N)).
Proof. intros HN. rewrite ids_ok_spec, HN. reflexivity. Qed.
Lemma same_laplacians N N' g a b : num_nodes_of N = n -> num_nodes_of N' = n -> rows N' = ren_table (rows N) -> ids_ok N = true ->
  both (fun x y => fst y = fst x /\ Forall2 (fun L L' => eqm n L' (renamed t L)) (snd x) (snd y)) (compute_laplacians N g a b) (compute_laplacians N' g a b).
Proof.
  intros HN HN' ER Hok. unfold compute_laplacians. rewrite Hok. assert (HB := proj1 (ids_ok_below N HN) Hok).
  assert (Hok' : ids_ok N' = true). { apply (ids_ok_below N' HN'). rewrite ER. intros e He. rewrite snd_ren in He. apply in_map_iff in He. destruct He as (f & <- & Hf). apply HB in Hf. cbn. split; now apply s_lt. }
  rewrite Hok', ER, times_ren. destruct (window (times (rows N)) a b) as [[[ta ka] [tb kb]]|]; [|exact I].
  assert (HX := same_groups (rows N) g HB (filter (fun u => qleb ta u && qltb u tb) (times (rows N))) _ _ (same_initial (rows N) (times (rows N)) ka HB)).
  destruct (lap_groups (rows N) g _ _), (lap_groups (ren_table (rows N)) g _ _); cbn in HX |- *; try contradiction; [|exact I]. now split.
Qed.
End Rename.
(** a map without collisions has a way back *)
Lemma renaming_exists n s : (forall i, i < n -> s i < n) -> (forall i j, i < n -> j < n -> s i = s j -> i = j) -> exists t, renaming n s t.
Proof.
  intros Hs Hi. exists (fun k => match find (fun i => s i =? k) (seq 0 n) with Some i => i | None => 0 end).
  assert (HF : forall k, In k (map s (seq 0 n)) -> exists i, find (fun i => s i =? k) (seq 0 n) = Some i /\ i < n /\ s i = k).
  { intros k Hk. destruct (find (fun i => s i =? k) (seq 0 n)) as [i|] eqn:E.
    - exists i. apply find_some in E. destruct E as [E1 E2]. apply in_seq in E1. apply Nat.eqb_eq in E2. split; [reflexivity|]. split; [lia|exact E2].
    - exfalso. apply in_map_iff in Hk. destruct Hk as (i & <- & Hin). assert (H := find_none _ _ E i Hin). cbn in H. now rewrite Nat.eqb_refl in H. }
  split.
  - intros i Hin. split; [now apply Hs|]. destruct (HF (s i)) as (j & -> & Hj & E); [apply in_map, in_seq; lia|]. now apply Hi.
  - intros k Hk. assert (Hin : In k (map s (seq 0 n))).
    { apply (NoDup_length_incl (l := map s (seq 0 n)) (l' := seq 0 n)); [|rewrite map_length; lia| |apply in_seq; lia].
      - apply NoDup_map_inj_in; [|apply seq_NoDup]. intros a b Ha Hb. apply in_seq in Ha, Hb. apply Hi; lia.
      - intros y Hy. apply in_map_iff in Hy. destruct Hy as (a & <- & Ha). apply in_seq in Ha. apply in_seq. assert (Q := Hs a). lia. }
    destruct (HF k Hin) as (i & -> & H1 & H2). now split.
Qed.
