(** Lemmas on tables of events, relabelling, time grids and durations. *)
From Verif Require Import Base PartitionModel LouvainModel EventsModel EventsSpec.

Lemma all_some_map {A B} (f : A -> option B) l r : all_some (map f l) = Some r -> map f l = map Some r.
Proof.
  revert r. induction l as [|a l IH]; intros r; cbn [map all_some]; [intros [= <-]; reflexivity|].
  destruct (f a) as [b|]; [|discriminate]. destruct (all_some (map f l)) as [s|]; [|discriminate]. intros [= <-]. cbn [map]. now rewrite (IH s).
Qed.
Lemma all_some_ex {A B} (f : A -> option B) l : (forall a, In a l -> f a <> None) -> exists r, all_some (map f l) = Some r.
Proof.
  induction l as [|a l IH]; intros H; [eexists; reflexivity|]. cbn [map all_some].
  destruct (f a) as [b|] eqn:E; [|exfalso; apply (H a); [now left|assumption]].
  destruct IH as [r ->]; [intros; apply H; now right|]. eexists; reflexivity.
Qed.

(** * Relabelling *)
Section Labels.
Context {L : Type} (leb : L -> L -> bool) (HO : total_order leb).
Lemma leqb_eq a b : leqb leb a b = true <-> a = b.
Proof.
  destruct HO as (T & _ & A). unfold leqb. rewrite andb_true_iff. split; [intros []; now apply A|]. intros ->. destruct (T b b); auto.
Qed.
Lemma leqb_neq a b : leqb leb a b = false -> a <> b.
Proof. intros E H. apply leqb_eq in H. congruence. Qed.
Definition lt (a b : L) : Prop := leb a b = true /\ a <> b.
Lemma linsert_in x l y : In y (linsert leb x l) <-> y = x \/ In y l.
Proof.
  induction l as [|z l IH]; cbn [linsert]; [cbn; intuition congruence|]. destruct (leqb leb x z) eqn:E.
  - apply leqb_eq in E. subst z. cbn. intuition congruence.
  - destruct (leb x z); cbn [In]; [intuition congruence|]. rewrite IH. cbn. intuition congruence.
Qed.
Lemma linsert_sorted x l : StronglySorted lt l -> StronglySorted lt (linsert leb x l).
Proof.
  destruct HO as (T & Tr & A).
  induction l as [|z l IH]; intros H; cbn [linsert]; [repeat constructor|]. apply StronglySorted_inv in H as [H1 H2].
  destruct (leqb leb x z) eqn:E; [now constructor|].
  pose proof (leqb_neq x z E) as Hne.
  destruct (leb x z) eqn:E2.
  - constructor; [now constructor|]. constructor; [now split|]. rewrite Forall_forall in *. intros y Hy. destruct (H2 y Hy) as [H3 H4].
    split; [now apply (Tr x z y)|]. intros ->. apply H4. now apply A.
  - constructor; [now apply IH|]. rewrite Forall_forall in *. intros y Hy. apply linsert_in in Hy as [-> | Hy]; [|now apply H2].
    split; [destruct (T x z); congruence|congruence].
Qed.
Lemma sorted_labels_in l y : In y (sorted_labels leb l) <-> In y l.
Proof.
  induction l as [|x l IH]; [reflexivity|]. cbn [sorted_labels fold_right]. rewrite linsert_in. fold (sorted_labels leb l). rewrite IH. cbn. intuition congruence.
Qed.
Lemma sorted_labels_sorted l : StronglySorted lt (sorted_labels leb l).
Proof. induction l as [|x l IH]; [constructor|]. now apply linsert_sorted. Qed.
Lemma label_to_node_spec ls x n : NoDup ls -> (label_to_node leb ls x = Some n <-> nth_error ls n = Some x).
Proof.
  revert n. induction ls as [|y ls IH]; intros n H; cbn [label_to_node]; [destruct n; split; discriminate|].
  apply NoDup_cons_iff in H as [H1 H2]. destruct (leqb leb x y) eqn:E.
  - apply leqb_eq in E. subst y. split; [intros [= <-]; reflexivity|]. destruct n as [|n]; [reflexivity|]. cbn. intros K. apply nth_error_In in K. contradiction.
  - pose proof (leqb_neq x y E) as Hne.
    destruct n as [|n]; cbn [nth_error].
    + split; [destruct (label_to_node leb ls x); discriminate|congruence].
    + rewrite <- IH by assumption. destruct (label_to_node leb ls x); cbn; split; congruence.
Qed.
Lemma sorted_NoDup l : StronglySorted lt l -> NoDup l.
Proof.
  induction 1 as [|a l H IH F]; constructor; [|assumption]. intros Ha. rewrite Forall_forall in F. destruct (F a Ha) as [_ K]. congruence.
Qed.
Lemma sorted_nth l i j a b : StronglySorted lt l -> nth_error l i = Some a -> nth_error l j = Some b -> i < j -> lt a b.
Proof.
  intros H. revert i j. induction H as [|x l H IH F]; intros i j Ha Hb Hij; [destruct i; discriminate|].
  destruct j as [|j]; [lia|]. destruct i as [|i]; cbn in Ha, Hb.
  - injection Ha as ->. rewrite Forall_forall in F. apply F. now apply nth_error_In in Hb.
  - now apply (IH i j); [| |lia].
Qed.
Lemma relabel_spec srcs tgts : exists s t ls, relabel leb srcs tgts = Some (s, t, ls) /\
  map (node_to_label ls) s = map Some srcs /\ map (node_to_label ls) t = map Some tgts /\
  (forall n, In n (s ++ t) <-> n < length ls) /\
  (forall m n a b, node_to_label ls m = Some a -> node_to_label ls n = Some b -> (m < n <-> leb a b = true /\ a <> b)).
Proof.
  unfold relabel. set (ls := sorted_labels leb (srcs ++ tgts)). pose proof (sorted_labels_sorted (srcs ++ tgts)) as HS. fold ls in HS.
  pose proof (sorted_NoDup ls HS) as HN.
  assert (G : forall l, incl l (srcs ++ tgts) -> exists r, all_some (map (label_to_node leb ls) l) = Some r /\ map (node_to_label ls) r = map Some l).
  { intros l Hl. destruct (all_some_ex (label_to_node leb ls) l) as [r Er].
    - intros a Ha. assert (Hin : In a ls) by (apply sorted_labels_in; now apply Hl). apply In_nth_error in Hin as [n Hn].
      apply (label_to_node_spec ls a n HN) in Hn. congruence.
    - exists r. split; [assumption|]. apply all_some_map in Er. clear Hl. revert r Er. induction l as [|a l IH]; intros [|n r] Er; try discriminate; [reflexivity|].
      cbn [map] in *. injection Er as E1 E2. apply (label_to_node_spec ls a n HN) in E1. unfold node_to_label at 1. rewrite E1. f_equal. now apply IH. }
  destruct (G srcs (fun x H => in_or_app _ _ _ (or_introl H))) as (s & -> & Es).
  destruct (G tgts (fun x H => in_or_app _ _ _ (or_intror H))) as (t & -> & Et).
  exists s, t, ls. split; [reflexivity|]. split; [assumption|split; [assumption|split]].
  - intros n. assert (E : map (node_to_label ls) (s ++ t) = map Some (srcs ++ tgts)) by (rewrite !map_app; congruence). split.
    + intros Hn. apply (in_map (node_to_label ls)) in Hn. rewrite E in Hn. apply in_map_iff in Hn as (a & Ha & _). symmetry in Ha.
      unfold node_to_label in Ha. apply nth_error_Some. congruence.
    + intros Hn. apply nth_error_Some in Hn. destruct (nth_error ls n) as [a|] eqn:Ea; [|congruence].
      assert (Hin : In a (srcs ++ tgts)) by (apply sorted_labels_in; apply nth_error_In in Ea; exact Ea).
      apply (in_map Some) in Hin. rewrite <- E in Hin. apply in_map_iff in Hin as (m & Hm & Hin). unfold node_to_label in Hm.
      assert (m = n); [|subst; assumption]. apply (label_to_node_spec ls a m HN) in Hm. apply (label_to_node_spec ls a n HN) in Ea. congruence.
  - intros m n a b Ha Hb. unfold node_to_label in *. split; [intros; now apply (sorted_nth ls m n)|].
    intros [H1 H2]. destruct (Nat.lt_trichotomy m n) as [H|[-> | H]]; [assumption|congruence|].
    destruct (sorted_nth ls n m b a HS Hb Ha H) as [H3 _]. exfalso. apply H2. destruct HO as (_ & _ & A). now apply A.
Qed.
End Labels.

(** * Tables *)
Lemma row_insert_perm x t : Permutation (row_insert x t) (x :: t).
Proof.
  induction t as [|y t IH]; [reflexivity|]. cbn [row_insert]. destruct (ev_leb _ _); [reflexivity|]. rewrite IH. apply perm_swap.
Qed.
Lemma sort_rows_perm t : Permutation (sort_rows t) t.
Proof. induction t as [|x t IH]; [reflexivity|]. cbn [sort_rows fold_right]. rewrite row_insert_perm. now constructor. Qed.
Definition ev_le (a b : event) : Prop := (e_start a < e_start b)%num \/ (e_start a = e_start b /\ (e_end a <= e_end b)%num).
Lemma ev_leb_spec a b : ev_leb a b = true <-> ev_le a b.
Proof.
  unfold ev_leb, ev_le. rewrite orb_true_iff, andb_true_iff.
  destruct (qltb_spec (e_start a) (e_start b)), (qeqb_spec (e_start a) (e_start b)), (qleb_spec (e_end a) (e_end b)); intuition congruence.
Qed.
Lemma ev_le_trans a b c : ev_le a b -> ev_le b c -> ev_le a c.
Proof. unfold ev_le. intros [H|[H1 H2]] [K|[K1 K2]]; [left; qlra|left; rewrite <- K1; assumption|left; rewrite H1; assumption|right; split; [congruence|qlra]]. Qed.
Lemma ev_le_total a b : ev_le a b \/ ev_le b a.
Proof.
  unfold ev_le. destruct (Qclt_le_dec (e_start a) (e_start b)) as [H|H]; [left; now left|].
  destruct (Qclt_le_dec (e_start b) (e_start a)) as [K|K]; [right; now left|].
  assert (e_start a = e_start b) by (apply Qcle_antisym; assumption).
  destruct (Qclt_le_dec (e_end a) (e_end b)) as [G|G]; [left; right; split; [assumption|qlra]|right; right; split; [congruence|assumption]].
Qed.
Definition row_ev_le (x y : nat * event) : Prop := ev_le (snd x) (snd y).
Lemma row_insert_sorted x t : StronglySorted row_ev_le t -> StronglySorted row_ev_le (row_insert x t).
Proof.
  induction t as [|y t IH]; intros H; cbn [row_insert]; [repeat constructor|]. apply StronglySorted_inv in H as [H1 H2].
  destruct (ev_leb (snd x) (snd y)) eqn:E.
  - apply ev_leb_spec in E. constructor; [now constructor|]. constructor; [exact E|]. rewrite Forall_forall in *. intros z Hz.
    apply (ev_le_trans _ (snd y)); [assumption|now apply H2].
  - constructor; [now apply IH|]. rewrite Forall_forall in *. intros z Hz. apply (Permutation_in _ (row_insert_perm x t)) in Hz as [<- | Hz]; [|now apply H2].
    destruct (ev_le_total (snd x) (snd y)) as [K|K]; [apply ev_leb_spec in K; congruence|exact K].
Qed.
Lemma sort_rows_sorted t : StronglySorted row_ev_le (sort_rows t).
Proof. induction t as [|x t IH]; [constructor|]. now apply row_insert_sorted. Qed.
Lemma map_fst_combine {A B} (l : list A) (m : list B) : length l = length m -> map fst (combine l m) = l.
Proof. revert m. induction l as [|a l IH]; intros [|b m] H; try discriminate; [reflexivity|]. cbn. f_equal. apply IH. now injection H. Qed.
Lemma map_snd_combine {A B} (l : list A) (m : list B) : length l = length m -> map snd (combine l m) = m.
Proof. revert m. induction l as [|a l IH]; intros [|b m] H; try discriminate; [reflexivity|]. cbn. f_equal. apply IH. now injection H. Qed.
Lemma reset_index_fst t : map fst (reset_index t) = seq 0 (length t).
Proof. unfold reset_index. apply map_fst_combine. now rewrite seq_length, map_length. Qed.
Lemma reset_index_snd t : map snd (reset_index t) = map snd t.
Proof. unfold reset_index. apply map_snd_combine. now rewrite seq_length, map_length. Qed.
Lemma reset_index_own t : own_index (reset_index t).
Proof. unfold own_index. rewrite reset_index_fst. apply seq_NoDup. Qed.
Lemma combine_seq_sorted_lt {B} (R : B -> B -> Prop) (m : list B) : forall k,
  StronglySorted R m -> forall a b e f, In (a, e) (combine (seq k (length m)) m) -> In (b, f) (combine (seq k (length m)) m) -> ~ R f e -> e <> f -> a < b.
Proof.
  induction m as [|x m IH]; intros k H a b e f Ha Hb HR Hne; [contradiction|]. apply StronglySorted_inv in H as [H1 H2]. rewrite Forall_forall in H2.
  cbn [length seq combine] in Ha, Hb. destruct Ha as [[= <- <-] | Ha], Hb as [[= <- <-] | Hb].
  - congruence.
  - apply in_combine_l in Hb. apply in_seq in Hb. lia.
  - exfalso. apply HR. apply in_combine_r in Ha. now apply H2.
  - now apply (IH (S k) H1 a b e f).
Qed.
Lemma reset_sorted_by_start t : StronglySorted row_ev_le t -> index_by_start (reset_index t).
Proof.
  intros H a b e f Ha Hb Hlt. unfold reset_index in *. rewrite <- (map_length snd t) in Ha, Hb.
  assert (HS : StronglySorted ev_le (map snd t)).
  { clear - H. induction H as [|x t H IH F]; [constructor|]. cbn. constructor; [assumption|]. rewrite Forall_forall in *. intros y Hy.
    apply in_map_iff in Hy as (r & <- & Hr). now apply F. }
  apply (combine_seq_sorted_lt ev_le (map snd t) 0 HS a b e f Ha Hb).
  - unfold ev_le. intros [K|[K _]]; qlra.
  - intros ->. qlra.
Qed.
Lemma zip_events_spec srcs tgts starts ends evs : zip_events srcs tgts starts ends = Some evs ->
  map e_src evs = srcs /\ map e_tgt evs = tgts /\ map e_start evs = starts /\ map e_end evs = ends /\
  forall e, In e evs -> e_dur e = (e_end e - e_start e)%num.
Proof.
  revert tgts starts ends evs. induction srcs as [|s srcs IH]; intros [|t tgts] [|a starts] [|b ends] evs H; cbn in H; try discriminate.
  - injection H as <-. repeat split; intros _ [].
  - destruct (zip_events srcs tgts starts ends) as [r|] eqn:E; [|discriminate]. injection H as <-.
    destruct (IH _ _ _ _ E) as (H1 & H2 & H3 & H4 & HD). cbn. repeat split; try congruence. intros e [<- | He]; [reflexivity|now apply HD].
Qed.
Lemma zip_events_ex srcs tgts starts ends : length tgts = length srcs -> length starts = length srcs -> length ends = length srcs ->
  exists evs, zip_events srcs tgts starts ends = Some evs.
Proof.
  revert tgts starts ends. induction srcs as [|s srcs IH]; intros [|t tgts] [|a starts] [|b ends] H1 H2 H3; try discriminate; [eexists; reflexivity|].
  destruct (IH tgts starts ends) as [r Er]; try (cbn in *; lia). cbn. rewrite Er. eexists; reflexivity.
Qed.
Lemma build_table_perm reset srcs tgts starts ends t : build_table reset srcs tgts starts ends = Some t ->
  exists evs, zip_events srcs tgts starts ends = Some evs /\ Permutation (map snd t) evs /\ own_index t /\ (reset = true -> index_by_start t).
Proof.
  unfold build_table. destruct (zip_events srcs tgts starts ends) as [evs|]; [|discriminate]. intros [= <-]. exists evs. split; [reflexivity|].
  set (t0 := combine (seq 0 (length evs)) evs).
  assert (P0 : Permutation (sort_rows t0) t0) by apply sort_rows_perm.
  assert (S0 : map snd t0 = evs) by (apply map_snd_combine; apply seq_length).
  assert (F0 : map fst t0 = seq 0 (length evs)) by (apply map_fst_combine; apply seq_length).
  destruct reset.
  - rewrite reset_index_snd. split; [rewrite <- S0; now apply Permutation_map|split; [apply reset_index_own|]].
    intros _. apply reset_sorted_by_start, sort_rows_sorted.
  - split; [rewrite <- S0; now apply Permutation_map|split; [|discriminate]].
    unfold own_index. apply (Permutation_NoDup (Permutation_sym (Permutation_map fst P0))). rewrite F0. apply seq_NoDup.
Qed.
(** node ids *)
Lemma nat_insert_in x l y : In y (nat_insert x l) <-> y = x \/ In y l.
Proof.
  induction l as [|z l IH]; cbn [nat_insert]; [cbn; intuition congruence|]. destruct (Nat.eqb_spec x z) as [-> |].
  - cbn. intuition congruence.
  - destruct (x <? z); cbn [In]; [intuition congruence|]. rewrite IH. intuition congruence.
Qed.
Lemma nat_insert_sorted x l : StronglySorted Nat.lt l -> StronglySorted Nat.lt (nat_insert x l).
Proof.
  induction l as [|z l IH]; intros H; cbn [nat_insert]; [repeat constructor|]. apply StronglySorted_inv in H as [H1 H2].
  destruct (Nat.eqb_spec x z); [now constructor|]. destruct (Nat.ltb_spec x z).
  - constructor; [now constructor|]. constructor; [assumption|]. rewrite Forall_forall in *. intros y Hy. specialize (H2 y Hy). unfold Nat.lt in *. lia.
  - constructor; [now apply IH|]. rewrite Forall_forall in *. intros y Hy. apply nat_insert_in in Hy as [-> | Hy]; [unfold Nat.lt; lia|now apply H2].
Qed.
Lemma node_array_in t x : In x (node_array t) <-> exists e, In e (map snd t) /\ (x = e_src e \/ x = e_tgt e).
Proof.
  unfold node_array. assert (G : forall l, In x (fold_right nat_insert [] l) <-> In x l).
  { induction l as [|a l IH]; [reflexivity|]. cbn [fold_right]. rewrite nat_insert_in, IH. cbn. intuition congruence. }
  rewrite G, in_app_iff, !in_map_iff. split.
  - intros [(r & <- & Hr) | (r & <- & Hr)]; exists (snd r); split; auto; now apply in_map.
  - intros (e & He & [-> | ->]); apply in_map_iff in He as (r & <- & Hr); [left|right]; now exists r.
Qed.
Lemma node_array_sorted t : StronglySorted Nat.lt (node_array t).
Proof. unfold node_array. generalize (map (fun r : nat * event => e_src (snd r)) t ++ map (fun r : nat * event => e_tgt (snd r)) t). induction l as [|a l IH]; [constructor|]. now apply nat_insert_sorted. Qed.
Lemma sorted_range l n : StronglySorted Nat.lt l -> (forall x, In x l <-> x < n) -> l = seq 0 n.
Proof.
  assert (G : forall l k, StronglySorted Nat.lt l -> (forall x, In x l <-> k <= x < n) -> l = seq k (n - k)).
  { induction l0 as [|a l0 IH]; intros k H Hin.
    - destruct (n - k) eqn:E; [reflexivity|]. exfalso. apply (Hin k). lia.
    - apply StronglySorted_inv in H as [H1 H2]. rewrite Forall_forall in H2.
      assert (Ha : k <= a < n) by (apply Hin; now left).
      assert (a = k). { assert (Hk : In k (a :: l0)) by (apply Hin; lia). destruct Hk as [Hk|Hk]; [assumption|]. specialize (H2 k Hk). unfold Nat.lt in H2. lia. }
      subst a. replace (n - k) with (S (n - S k)) by lia. cbn [seq]. f_equal. apply IH; [assumption|]. intros x. split.
      + intros Hx. specialize (H2 x Hx). unfold Nat.lt in H2. assert (k <= x < n) by (apply Hin; now right). lia.
      + intros Hx. assert (Hx' : In x (k :: l0)) by (apply Hin; lia). destruct Hx'; [lia|assumption]. }
  intros H Hin. rewrite (G l 0 H); [now rewrite Nat.sub_0_r|]. intros x. rewrite Hin. lia.
Qed.

(** * Times *)
Lemma time_insert_in x l y : In y (time_insert x l) <-> y = x \/ In y l.
Proof.
  induction l as [|z l IH]; cbn [time_insert]; [cbn; intuition congruence|]. destruct (qeqb_spec x z) as [-> |].
  - cbn. intuition congruence.
  - destruct (qltb x z); cbn [In]; [intuition congruence|]. rewrite IH. intuition congruence.
Qed.
Lemma time_insert_sorted x l : StronglySorted Qclt l -> StronglySorted Qclt (time_insert x l).
Proof.
  induction l as [|z l IH]; intros H; cbn [time_insert]; [repeat constructor|]. apply StronglySorted_inv in H as [H1 H2].
  destruct (qeqb_spec x z) as [|Hne]; [now constructor|]. destruct (qltb_spec x z) as [Hlt|Hge].
  - constructor; [now constructor|]. constructor; [assumption|]. rewrite Forall_forall in *. intros y Hy. specialize (H2 y Hy). qlra.
  - constructor; [now apply IH|]. rewrite Forall_forall in *. intros y Hy. apply time_insert_in in Hy as [-> | Hy]; [|now apply H2].
    destruct (Qclt_le_dec z x) as [|Hle]; [assumption|]. exfalso. apply Hne. apply Qcle_antisym; [exact Hle|qlra].
Qed.
Lemma uniq_times_in l x : In x (uniq_times l) <-> In x l.
Proof. unfold uniq_times. induction l as [|a l IH]; [reflexivity|]. cbn [fold_right]. rewrite time_insert_in, IH. cbn. intuition congruence. Qed.
Lemma uniq_times_sorted l : StronglySorted Qclt (uniq_times l).
Proof. induction l as [|a l IH]; [constructor|]. now apply time_insert_sorted. Qed.
Lemma times_sorted t : StronglySorted Qclt (times t).
Proof. apply uniq_times_sorted. Qed.
Lemma times_in t x : In x (times t) <-> exists e, In e (map snd t) /\ (x = e_start e \/ x = e_end e).
Proof.
  unfold times. fold (uniq_times (map g_time (grid_rows t))). rewrite uniq_times_in. unfold grid_rows. rewrite map_app, !map_map, in_app_iff, !in_map_iff. cbn [g_time]. split.
  - intros [(r & <- & Hr) | (r & <- & Hr)]; exists (snd r); split; auto; now apply in_map.
  - intros (e & He & [-> | ->]); apply in_map_iff in He as (r & <- & Hr); [left|right]; now exists r.
Qed.
Lemma qsorted_NoDup l : StronglySorted Qclt l -> NoDup l.
Proof.
  induction 1 as [|a l H IH F]; constructor; [|assumption]. intros Ha. rewrite Forall_forall in F. specialize (F a Ha). qlra.
Qed.
Lemma qsorted_nth l i j d : StronglySorted Qclt l -> i < j -> j < length l -> (nth i l d < nth j l d)%num.
Proof.
  intros H. revert i j. induction H as [|a l H IH F]; intros i j Hij Hj; cbn [length] in Hj; [lia|]. destruct j as [|j]; [lia|].
  destruct i as [|i]; cbn [nth].
  - rewrite Forall_forall in F. apply F. apply nth_In. lia.
  - apply IH; lia.
Qed.
Lemma index_of_spec l x k : NoDup l -> (index_of x l = Some k <-> k < length l /\ nth k l 0%num = x).
Proof.
  revert k. induction l as [|y l IH]; intros k H; cbn [index_of length]; [split; [discriminate|lia]|].
  apply NoDup_cons_iff in H as [H1 H2]. destruct (qeqb_spec x y) as [-> | Hne].
  - split; [intros [= <-]; split; [lia|reflexivity]|]. intros [Hk E]. destruct k as [|k]; [reflexivity|]. cbn in E. exfalso. apply H1. rewrite <- E. apply nth_In. lia.
  - destruct k as [|k]; cbn [nth].
    + split; [destruct (index_of x l); discriminate|]. intros [_ E]. congruence.
    + specialize (IH k H2). destruct (index_of x l) as [m|]; cbn.
      * split; [intros [= ->]; assert (Some k = Some k) as E by reflexivity; apply IH in E; split; [lia|tauto]|].
        intros [Hk E]. f_equal. f_equal. assert (Some m = Some k) as E2 by (apply IH; split; [lia|assumption]). congruence.
      * split; [discriminate|]. intros [Hk E]. assert (None = Some k) by (apply IH; split; [lia|assumption]). discriminate.
Qed.
Lemma num_maxl_spec l : l <> [] -> In (num_maxl l) l /\ forall x, In x l -> (x <= num_maxl l)%num.
Proof.
  destruct l as [|a l]; [congruence|]. intros _. unfold num_maxl. cbn [hd tl]. revert a.
  induction l as [|b l IH]; intros a; cbn [fold_left].
  - split; [now left|]. intros x [<- | []]. qlra.
  - destruct (qltb_spec a b) as [E|E].
    + destruct (IH b) as [H1 H2]. split; [right; exact H1|].
      intros x [<- | Hx]; [|now apply H2]. specialize (H2 b (or_introl eq_refl)). qlra.
    + destruct (IH a) as [H1 H2]. split; [destruct H1 as [<- | H1]; [now left|right; now right]|].
      intros x [<- | [<- | Hx]]; [apply H2; now left| |apply H2; now right]. specialize (H2 a (or_introl eq_refl)). qlra.
Qed.
Lemma num_min_spec l : l <> [] -> In (num_min l) l /\ forall x, In x l -> (num_min l <= x)%num.
Proof.
  destruct l as [|a l]; [congruence|]. intros _. unfold num_min. cbn [hd tl]. revert a.
  induction l as [|b l IH]; intros a; cbn [fold_left].
  - split; [now left|]. intros x [<- | []]. qlra.
  - destruct (qltb_spec b a) as [E|E].
    + destruct (IH b) as [H1 H2]. split; [right; exact H1|].
      intros x [<- | Hx]; [|now apply H2]. specialize (H2 b (or_introl eq_refl)). qlra.
    + destruct (IH a) as [H1 H2]. split; [destruct H1 as [<- | H1]; [now left|right; now right]|].
      intros x [<- | [<- | Hx]]; [apply H2; now left| |apply H2; now right]. specialize (H2 a (or_introl eq_refl)). qlra.
Qed.
(** the last time of a sorted list not after t, or the first one *)
Theorem closest_time_spec ts t : StronglySorted Qclt ts -> ts <> [] -> exists k, k < length ts /\ closest_time ts t = Some (nth k ts 0%num, k) /\
  ((nth k ts 0 <= t)%num /\ (forall j, k < j -> j < length ts -> (t < nth j ts 0)%num) \/ (k = 0 /\ forall x, In x ts -> (t < x)%num)).
Proof.
  intros HS Hne. pose proof (qsorted_NoDup ts HS) as HN. unfold closest_time. destruct ts as [|t0 ts]; [congruence|]. clear Hne.
  set (l := t0 :: ts) in *. destruct (existsb (qeqb t) l) eqn:E.
  - apply existsb_exists in E as (x & Hx & E). destruct (qeqb_spec t x) as [-> |]; [|discriminate].
    apply (In_nth _ _ 0%num) in Hx as (k & Hk & Ek). assert (EI : index_of x l = Some k) by (apply index_of_spec; [assumption|now split]).
    rewrite EI. exists k. split; [assumption|split; [now rewrite Ek|left]]. rewrite Ek. split; [qlra|]. intros j H1 H2. rewrite <- Ek. now apply qsorted_nth.
  - assert (Hno : forall x, In x l -> x <> t).
    { intros x Hx ->. apply not_true_iff_false in E. apply E. apply existsb_exists. exists t. split; [assumption|]. now destruct (qeqb_spec t t). }
    destruct (qleb_spec t t0) as [Hle|Hgt].
    + assert (EI : index_of t0 l = Some 0) by (apply index_of_spec; [assumption|split; [unfold l; cbn; lia|reflexivity]]).
      rewrite EI. exists 0. split; [unfold l; cbn; lia|split; [reflexivity|right]]. split; [reflexivity|].
      assert (t <> t0) by (intros ->; apply (Hno t0); [now left|reflexivity]).
      intros x Hx. assert (t < t0)%num by (destruct (Qclt_le_dec t t0); [assumption|exfalso; apply H; apply Qcle_antisym; assumption]).
      destruct Hx as [<- | Hx]; [assumption|]. apply StronglySorted_inv in HS as [_ F]. rewrite Forall_forall in F. specialize (F x Hx). qlra.
    + assert (Hf : filter (fun x => qleb x t) l <> []).
      { unfold l. cbn [filter]. destruct (qleb_spec t0 t); [discriminate|]. exfalso. qlra. }
      destruct (num_maxl_spec _ Hf) as [H1 H2]. set (m := num_maxl (filter (fun x => qleb x t) l)) in *.
      apply filter_In in H1 as [H1 H3]. destruct (qleb_spec m t) as [Hm|]; [|discriminate].
      apply (In_nth _ _ 0%num) in H1 as (k & Hk & Ek). assert (EI : index_of m l = Some k) by (apply index_of_spec; [assumption|now split]).
      rewrite EI. exists k. split; [assumption|split; [now rewrite Ek|left]]. rewrite Ek. split; [assumption|].
      intros j Hj1 Hj2. destruct (Qclt_le_dec t (nth j l 0%num)) as [|Hle]; [assumption|]. exfalso.
      pose proof (qsorted_nth l k j 0%num HS Hj1 Hj2) as Hlt. rewrite Ek in Hlt.
      assert (nth j l 0 <= m)%num by (apply H2; apply filter_In; split; [now apply nth_In|]; now destruct (qleb_spec (nth j l 0%num) t)).
      qlra.
Qed.

(** * Durations *)
Lemma clipped_inside e s u : (s <= u)%num -> (e_start e <= e_end e)%num ->
  (if in_window e s u then clipped e s u else 0%num) = part_inside e s u.
Proof.
  intros H He. unfold in_window, clipped, part_inside.
  destruct (qltb_spec (e_start e) u), (qltb_spec s (e_end e)), (qleb_spec (e_end e) u), (qleb_spec s (e_start e)); cbn [andb];
  match goal with |- context [qleb 0%num ?l] => destruct (qleb_spec 0%num l) end; try reflexivity; try (exfalso; qlra); qlra.
Qed.
Lemma static_entry t s u i j : (s <= u)%num -> (forall e, In e (map snd t) -> (e_start e <= e_end e)%num) -> i <> j ->
  (coo_entry t s u i j + coo_entry t s u j i = contact_time t i j s u)%num.
Proof.
  intros H He Hij. unfold coo_entry, contact_time. rewrite !sumL_filter. rewrite <- sumL_add. apply sumL_ext. intros r Hr.
  rewrite <- clipped_inside by (try assumption; apply He; now apply in_map).
  unfold joinsb. destruct (in_window (snd r) s u);
  destruct (Nat.eqb_spec (e_src (snd r)) i), (Nat.eqb_spec (e_tgt (snd r)) j), (Nat.eqb_spec (e_src (snd r)) j), (Nat.eqb_spec (e_tgt (snd r)) i); cbn [andb orb]; try ring; congruence.
Qed.
Lemma static_diag t s u i : (s <= u)%num -> (forall e, In e (map snd t) -> (e_start e <= e_end e)%num) ->
  (coo_entry t s u i i + coo_entry t s u i i = contact_time t i i s u + contact_time t i i s u)%num.
Proof.
  intros H He. unfold coo_entry, contact_time. rewrite !sumL_filter. rewrite <- !sumL_add. apply sumL_ext. intros r Hr.
  rewrite <- clipped_inside by (try assumption; apply He; now apply in_map).
  unfold joinsb. rewrite orb_diag. destruct (in_window (snd r) s u), (_ && _)%bool; ring.
Qed.
Lemma part_inside_split e s m u : (s <= m)%num -> (m <= u)%num -> (e_start e <= e_end e)%num ->
  (part_inside e s m + part_inside e m u = part_inside e s u)%num.
Proof.
  intros H1 H2 He. unfold part_inside.
  destruct (qleb_spec (e_end e) m), (qleb_spec s (e_start e)), (qleb_spec (e_end e) u), (qleb_spec m (e_start e));
  repeat match goal with |- context [qleb 0%num ?l] => destruct (qleb_spec 0%num l) end; qlra.
Qed.
Lemma contact_time_split t i j s m u : (s <= m)%num -> (m <= u)%num -> (forall e, In e (map snd t) -> (e_start e <= e_end e)%num) ->
  (contact_time t i j s m + contact_time t i j m u = contact_time t i j s u)%num.
Proof.
  intros H1 H2 He. unfold contact_time. rewrite <- sumL_add. apply sumL_ext. intros r Hr.
  destruct (joinsb _ _ _); [|ring]. apply part_inside_split; try assumption. apply He. now apply in_map.
Qed.
