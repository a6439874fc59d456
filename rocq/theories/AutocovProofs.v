(** Lemmas about the SparseAutocovMat model. *)
From Verif Require Import Base PartitionModel PartitionSpec SparseModel SparseSpec SparseProofs SparseOpsProofs SparseConvProofs
  AutocovModel AutocovSpec.
Local Open Scope bool_scope.

Lemma csr_size_ok n M : csr_ok n M -> csr_size M = n.
Proof. intros (H & _). unfold csr_size. lia. Qed.
Lemma csr_rows_ok n M : csr_ok n M -> csr_rows M = map (row_entries M) (seq 0 n).
Proof. intros H. unfold csr_rows. now rewrite (csr_size_ok n M H). Qed.
Lemma rows_row {A} (f : nat -> list A) n i d : i < n -> nth i (map f (seq 0 n)) d = f i.
Proof.
  intros Hi. rewrite (nth_map_dep f (seq 0 n) i 0 d) by now rewrite seq_length.
  now rewrite seq_nth.
Qed.
Lemma csr_of_fun n (f : nat -> list (nat * num)) : (forall i e, i < n -> In e (f i) -> fst e < n) ->
  csr_ok n (of_rows (map f (seq 0 n))) /\
  forall i, i < n -> row_entries (of_rows (map f (seq 0 n))) i = f i.
Proof.
  intros H. split.
  - apply csr_ok_of_rows; [now rewrite map_length, seq_length|]. intros r e Hr He.
    apply in_map_iff in Hr. destruct Hr as (i & <- & Hi). apply seq_In_iff in Hi. eauto.
  - intros i Hi. rewrite row_entries_of_rows by (now rewrite map_length, seq_length). now apply rows_row.
Qed.

(** ** sort_indices *)
Lemma insert_entry_perm e l : Permutation (insert_entry e l) (e :: l).
Proof.
  induction l as [|f r IH]; simpl; [constructor; constructor|]. destruct (fst e <=? fst f); [apply Permutation_refl|].
  rewrite IH. constructor.
Qed.
Lemma sort_entries_perm l : Permutation (sort_entries l) l.
Proof. induction l as [|e l IH]; simpl; [constructor|]. now rewrite insert_entry_perm, IH. Qed.
Lemma insert_entry_sorted e l : StronglySorted le (map fst l) -> StronglySorted le (map fst (insert_entry e l)).
Proof.
  induction l as [|f r IH]; simpl; intros H; [repeat constructor|].
  destruct (Nat.leb_spec (fst e) (fst f)).
  - simpl. constructor; [exact H|]. constructor; [lia|]. apply StronglySorted_inv in H. destruct H as [_ H].
    rewrite Forall_forall in H |- *. intros x Hx. specialize (H x Hx). lia.
  - apply StronglySorted_inv in H. destruct H as [H1 H2]. simpl. constructor; [now apply IH|].
    apply Forall_forall. intros x Hx. rewrite Forall_forall in H2.
    apply (Permutation_in x (Permutation_map fst (insert_entry_perm e r))) in Hx.
    simpl in Hx. destruct Hx as [<-|Hx]; [lia|auto].
Qed.
Lemma sort_entries_sorted l : StronglySorted le (map fst (sort_entries l)).
Proof. induction l as [|e l IH]; simpl; [constructor|]. now apply insert_entry_sorted. Qed.
Lemma sorted_strict l : StronglySorted le l -> NoDup l -> StronglySorted lt l.
Proof.
  induction 1 as [|a l Hs IH Hf]; intros Hn; constructor; inversion Hn; subst.
  - auto.
  - rewrite Forall_forall in Hf |- *. intros x Hx. specialize (Hf x Hx).
    assert (x <> a) by (intros ->; contradiction). lia.
Qed.
Lemma sort_indices_spec n M : csr_ok n M -> csr_ok n (sort_indices M) /\
  forall i, i < n -> row_entries (sort_indices M) i = sort_entries (row_entries M i).
Proof.
  intros HM. unfold sort_indices. rewrite (csr_rows_ok n M HM), map_map.
  apply (csr_of_fun n (fun i => sort_entries (row_entries M i))).
  intros i e Hi He. apply (row_entries_col n M i e HM Hi). revert He. apply Permutation_in, sort_entries_perm.
Qed.
Lemma scattered_perm l1 l2 j : Permutation l1 l2 -> scattered l1 j = scattered l2 j.
Proof. apply sumL_perm. Qed.
Lemma sort_indices_value n M i j : csr_ok n M -> i < n -> value (sort_indices M) i j = value M i j.
Proof.
  intros HM Hi. rewrite !value_scattered, (proj2 (sort_indices_spec n M HM) i Hi).
  apply scattered_perm, sort_entries_perm.
Qed.

(** ** tocsc *)
Lemma csc_column_scattered n M i j : csr_ok n M -> i < n -> scattered (csc_column M j) i = value M i j.
Proof.
  intros HM Hi. unfold csc_column. rewrite (csr_size_ok n M HM). unfold scattered. rewrite sumL_flat_map.
  transitivity (sumL (fun i' => if i' =? i then value M i' j else 0%num) (seq 0 n)).
  - apply sumL_ext. intros i' _. rewrite sumL_map, sumL_filter. cbn [fst snd].
    destruct (i' =? i); [|now apply sumL_zero; intros e _; destruct (fst e =? j)].
    reflexivity.
  - apply (sumN_delta n i (fun i' => value M i' j) Hi).
Qed.
Lemma csc_column_In n M j e : csr_ok n M -> In e (csc_column M j) <->
  fst e < n /\ In (j, snd e) (row_entries M (fst e)).
Proof.
  intros HM. unfold csc_column. rewrite (csr_size_ok n M HM), in_flat_map. split.
  - intros (i & Hi & He). apply seq_In_iff in Hi. apply in_map_iff in He. destruct He as (f & <- & Hf).
    apply filter_In in Hf. destruct Hf as [Hf Hj]. apply Nat.eqb_eq in Hj. cbn [fst snd].
    split; [exact Hi|]. destruct f as [c v]. simpl in *. now subst.
  - intros [Hi He]. exists (fst e). split; [now apply seq_In_iff|]. apply in_map_iff.
    exists (j, snd e). split; [now destruct e|]. apply filter_In. split; [exact He|apply Nat.eqb_refl].
Qed.
Lemma tocsc_spec n M : csr_ok n M -> csr_ok n (tocsc M) /\
  (forall j, j < n -> row_entries (tocsc M) j = csc_column M j) /\
  (forall i j, i < n -> j < n -> value (tocsc M) j i = value M i j).
Proof.
  intros HM. unfold tocsc. rewrite (csr_size_ok n M HM).
  destruct (csr_of_fun n (csc_column M)) as [H1 H2].
  { intros j e _ He. now apply (csc_column_In n M j e HM) in He. }
  split; [exact H1|]. split; [exact H2|]. intros i j Hi Hj.
  rewrite value_scattered, H2 by exact Hj. now apply (csc_column_scattered n).
Qed.

(** ** The constructor *)
Lemma built_init n PT p sym : csr_ok n PT ->
  (match p with PScal _ _ => True | PVec p1 p2 => length p1 = n /\ length p2 = n end) ->
  exists A, ac_init PT p sym = Some A.
Proof.
  intros HM Hp. unfold ac_init. destruct p as [p1 p2|p1 p2]; [eauto|].
  rewrite (csr_size_ok n PT HM). destruct Hp as [-> ->]. rewrite Nat.eqb_refl. simpl. eauto.
Qed.
Lemma built_inv n PT p sym A : built n PT p sym A ->
  a_PT A = sort_indices PT /\ a_p A = p /\ a_sym A = sym /\ a_size A = n /\
  csr_ok n (a_PT A) /\ csr_ok n (a_PTcsc A) /\
  (forall i j, i < n -> j < n -> value (a_PT A) i j = value PT i j) /\
  (forall i j, i < n -> j < n -> value (a_PTcsc A) j i = value PT i j) /\
  (match p with PScal _ _ => True | PVec p1 p2 => length p1 = n /\ length p2 = n end).
Proof.
  intros (HM & Hs & Hi). unfold ac_init in Hi.
  destruct (match p with PScal _ _ => true | PVec p1 p2 => (length p1 =? csr_size PT) && (length p2 =? csr_size PT) end)
    eqn:E; [|discriminate]. injection Hi as <-. cbn [a_PT a_PTcsc a_p a_sym].
  destruct (sort_indices_spec n PT HM) as [H1 H2]. destruct (tocsc_spec n _ H1) as (T1 & T2 & T3).
  assert (Hv : forall i j, i < n -> j < n -> value (sort_indices PT) i j = value PT i j)
    by (intros; now apply sort_indices_value with (n := n)).
  split; [reflexivity|]. split; [reflexivity|]. split; [reflexivity|].
  split; [now apply csr_size_ok|]. split; [exact H1|].
  split; [destruct sym; assumption|]. split; [exact Hv|]. split.
  - intros i j Hi Hj. destruct sym.
    + rewrite Hv by assumption. now apply Hs.
    + rewrite T3 by assumption. now apply Hv.
  - destruct p as [|p1 p2]; [exact I|]. apply andb_true_iff in E. rewrite !Nat.eqb_eq, (csr_size_ok n PT HM) in E. exact E.
Qed.
Lemma built_toarray n PT p sym A i j : built n PT p sym A -> i < n -> j < n ->
  toarray A i j = (value PT i j - p0_at p i j)%num.
Proof.
  intros HA Hi Hj. destruct (built_inv n PT p sym A HA) as (_ & Hp & _ & _ & _ & _ & Hv & _).
  unfold toarray. now rewrite Hp, Hv.
Qed.

(** ** Sums *)
Lemma fold_add {A} (p : A -> bool) (f : A -> num) l : forall s,
  fold_left (fun s e => if p e then (s + f e)%num else s) l s
  = (s + sumL (fun e => if p e then f e else 0) l)%num.
Proof. induction l as [|a l IH]; intros s; simpl; [ring|]. rewrite IH. destruct (p a); ring. Qed.
Lemma fold_sub {A} (p : A -> bool) (f : A -> num) l : forall s,
  fold_left (fun s e => if p e then (s - f e)%num else s) l s
  = (s - sumL (fun e => if p e then f e else 0) l)%num.
Proof. induction l as [|a l IH]; intros s; simpl; [ring|]. rewrite IH. destruct (p a); ring. Qed.
Lemma fold_sums {A} (f : A -> num) (g : num -> A -> num) l : (forall s a, g s a = (s + f a)%num) ->
  forall s, fold_left g l s = (s + sumL f l)%num.
Proof. intros H. induction l as [|a l IH]; intros s; simpl; [ring|]. rewrite IH, H. ring. Qed.

Lemma row_over M i cols : NoDup cols ->
  sumL (fun e => if memb (fst e) cols then snd e else 0%num) (row_entries M i)
  = sumL (fun j => value M i j) cols.
Proof.
  intros Hn. unfold value. rewrite sumL_swap. apply sumL_ext. intros e _.
  destruct (memb_spec (fst e) cols) as [H|H].
  - rewrite (sumL_ext _ (fun j => if j =? fst e then snd e else 0%num)) by (intros j _; now rewrite Nat.eqb_sym).
    symmetry. now apply (sumL_delta cols (fst e) (fun _ => snd e)).
  - symmetry. apply sumL_zero. intros j Hj. destruct (Nat.eqb_spec (fst e) j) as [E|]; [|reflexivity].
    exfalso. apply H. now rewrite E.
Qed.
Lemma submat_sum_spec M rows cols : NoDup cols ->
  submat_sum M rows cols = sum_over (value M) rows cols.
Proof.
  intros Hn. unfold submat_sum, sum_over.
  rewrite (fold_sums (fun i => sumL (fun j => value M i j) cols)); [ring|].
  intros s i. now rewrite fold_add, row_over.
Qed.
Lemma sum_over_sub f g rows cols :
  sum_over (fun i j => (f i j - g i j)%num) rows cols = (sum_over f rows cols - sum_over g rows cols)%num.
Proof. unfold sum_over. rewrite <- sumL_sub. apply sumL_ext. intros i _. apply sumL_sub. Qed.
Lemma sum_over_ext f g rows cols : (forall i j, In i rows -> In j cols -> f i j = g i j) ->
  sum_over f rows cols = sum_over g rows cols.
Proof. intros H. apply sumL_ext. intros i Hi. apply sumL_ext. auto. Qed.
Lemma sum_over_const c rows cols : sum_over (fun _ _ => c) rows cols = (qn (length rows) * qn (length cols) * c)%num.
Proof. unfold sum_over. rewrite (sumL_ext _ (fun _ => qn (length cols) * c)%num) by (intros; apply sumL_const). rewrite sumL_const. ring. Qed.

Lemma sum_over_single f i cols : sum_over f [i] cols = sumL (fun j => f i j) cols.
Proof. unfold sum_over. rewrite sumL_cons, sumL_nil. ring. Qed.

(** [toarray] of the object itself *)
Lemma ac_submat_sum_spec A rows cols : NoDup cols ->
  ac_submat_sum A rows cols = sum_over (toarray A) rows cols.
Proof.
  intros Hn. unfold ac_submat_sum. rewrite submat_sum_spec by exact Hn.
  unfold toarray. rewrite sum_over_sub. f_equal. f_equal.
  unfold p0_at. destruct (a_p A) as [p1 p2|p1 p2]; [now rewrite sum_over_const|].
  unfold sum_over. apply sumL_ext. intros i _. symmetry. apply (sumL_scal_l (nth i p1 0%num)).
Qed.
Lemma ac_row_sum_spec A row idx : NoDup idx -> ac_row_sum A row idx = sumL (fun j => toarray A row j) idx.
Proof.
  intros Hn. unfold ac_row_sum. rewrite submat_sum_spec, sum_over_single by exact Hn. unfold toarray. rewrite sumL_sub.
  unfold p0_at. destruct (a_p A) as [p1 p2|p1 p2]; [rewrite sumL_const|]; reflexivity.
Qed.
Lemma ac_col_sum_spec n PT p sym A col idx : built n PT p sym A -> col < n -> index_list n idx ->
  ac_col_sum A col idx = sumL (fun i => toarray A i col) idx.
Proof.
  intros HA Hc [Hn Hr]. destruct (built_inv n PT p sym A HA) as (_ & _ & _ & _ & _ & _ & Hv & Hvc & _).
  unfold ac_col_sum. rewrite submat_sum_spec, sum_over_single by exact Hn. unfold toarray. rewrite sumL_sub.
  rewrite (sumL_ext (fun j => value (a_PTcsc A) col j) (fun i => value (a_PT A) i col)).
  2:{ intros i Hi. rewrite Hvc, Hv by auto. reflexivity. }
  unfold p0_at. destruct (a_p A) as [p1 p2|p1 p2]; [rewrite sumL_const|]; ring.
Qed.

(** ** Single elements *)
Lemma find_value M i j : NoDup (map fst (row_entries M i)) ->
  match find (fun e => fst e =? j) (row_entries M i) with
  | None => value M i j = 0%num
  | Some e => value M i j = snd e
  end.
Proof.
  intros Hn. unfold value. induction (row_entries M i) as [|e l IH]; simpl; [reflexivity|].
  inversion Hn; subst. destruct (Nat.eqb_spec (fst e) j) as [<-|Hne].
  - rewrite sumL_zero; [ring|]. intros f Hf. destruct (Nat.eqb_spec (fst f) (fst e)) as [E|]; [|reflexivity].
    exfalso. apply H1. rewrite <- E. now apply in_map.
  - specialize (IH H2). destruct (find (fun e => fst e =? j) l); unfold sumL in IH |- *; rewrite IH; ring.
Qed.
Lemma sorted_no_repetition n M : csr_ok n M -> no_repetition M -> forall i, i < n ->
  NoDup (map fst (row_entries (sort_indices M) i)).
Proof.
  intros HM Hr i Hi. rewrite (proj2 (sort_indices_spec n M HM) i Hi).
  apply (Permutation_NoDup (Permutation_map fst (Permutation_sym (sort_entries_perm (row_entries M i))))). apply Hr.
Qed.
Lemma ac_element_spec n PT p sym A i j : built n PT p sym A -> no_repetition PT -> i < n ->
  ac_element A i j = toarray A i j.
Proof.
  intros HA Hr Hi. destruct (built_inv n PT p sym A HA) as (HPT & _). destruct HA as (HM & _).
  unfold ac_element, toarray. rewrite HPT.
  pose proof (find_value (sort_indices PT) i j (sorted_no_repetition n PT HM Hr i Hi)) as H.
  destruct (find (fun e => fst e =? j) (row_entries (sort_indices PT) i)); rewrite H; ring.
Qed.

(** ** Gains *)
Lemma diag_from_spec M k stop : stop <= length (c_idx M) -> length (c_idx M) = length (c_data M) ->
  forall fuel j, j < stop -> stop - j <= S fuel ->
  (forall a b, j <= a -> a < b -> b < stop -> nth a (c_idx M) 0 < nth b (c_idx M) 0) ->
  diag_from fuel M k stop j =
  Some (sumL (fun a => if nth a (c_idx M) 0 =? k then nth a (c_data M) 0%num else 0%num) (seq j (stop - j))).
Proof.
  intros Hs Hl. induction fuel as [|fuel IH]; intros j Hj Hf Hsort; cbn [diag_from].
  - rewrite (nth_error_nth' (c_idx M) 0) by lia.
    destruct (Nat.ltb_spec (S j) stop); [lia|]. rewrite andb_false_r.
    replace (stop - j) with 1 by lia. cbn [seq sumL fold_right].
    destruct (nth j (c_idx M) 0 =? k); [rewrite (nth_error_nth' (c_data M) 0%num) by lia|]; f_equal; ring.
  - rewrite (nth_error_nth' (c_idx M) 0) by lia.
    replace (stop - j) with (S (stop - S j)) by lia. cbn [seq]. rewrite sumL_cons.
    destruct (Nat.ltb_spec (nth j (c_idx M) 0) k) as [Hlt|Hge]; cbn [andb].
    + destruct (Nat.ltb_spec (S j) stop) as [Hst|Hst]; cbn [andb].
      * rewrite IH; [|lia|lia|intros; apply Hsort; lia].
        destruct (Nat.eqb_spec (nth j (c_idx M) 0) k); [lia|]. f_equal. ring.
      * destruct (Nat.eqb_spec (nth j (c_idx M) 0) k); [lia|].
        replace (stop - S j) with 0 by lia. f_equal; cbn; try ring.
    + assert (E : sumL (fun a => if nth a (c_idx M) 0 =? k then nth a (c_data M) 0%num else 0%num)
                    (seq (S j) (stop - S j)) = 0%num).
      { apply sumL_zero. intros a Ha. apply in_seq in Ha.
        assert (nth j (c_idx M) 0 < nth a (c_idx M) 0) by (apply Hsort; lia).
        destruct (Nat.eqb_spec (nth a (c_idx M) 0) k); [lia|reflexivity]. }
      rewrite E. destruct (nth j (c_idx M) 0 =? k); [rewrite (nth_error_nth' (c_data M) 0%num) by lia|]; f_equal; ring.
Qed.
Lemma row_entries_length M i : length (row_entries M i) = nth (S i) (c_ptr M) 0 - nth i (c_ptr M) 0.
Proof. unfold row_entries, row_range. now rewrite map_length, seq_length. Qed.
Lemma row_entries_nth M i k d : k < length (row_entries M i) ->
  nth k (row_entries M i) d = (nth (nth i (c_ptr M) 0 + k) (c_idx M) 0, nth (nth i (c_ptr M) 0 + k) (c_data M) 0%num).
Proof.
  rewrite row_entries_length. intros H. unfold row_entries, row_range.
  rewrite (nth_map_dep _ _ k 0) by now rewrite seq_length. rewrite seq_nth by lia. reflexivity.
Qed.
Lemma diag_search_spec n M k : csr_ok n M -> k < n -> row_entries M k <> [] ->
  StronglySorted lt (map fst (row_entries M k)) -> diag_search M k = Some (value M k k).
Proof.
  intros HM Hk Hne Hs. destruct (row_bounds n M k HM Hk) as [Hb1 Hb2].
  assert (Hl : length (row_entries M k) <> 0) by (destruct (row_entries M k); [congruence|discriminate]).
  rewrite row_entries_length in Hl.
  assert (Hdi : length (c_idx M) = length (c_data M)) by apply HM.
  unfold diag_search. cbv zeta. rewrite diag_from_spec; [| lia | exact Hdi | lia | lia |].
  - f_equal. unfold value, row_entries. rewrite sumL_map. reflexivity.
  - intros a b Ha Hab Hbs.
    set (st := nth k (c_ptr M) 0) in *.
    assert (L : length (map fst (row_entries M k)) = nth (S k) (c_ptr M) 0 - st)
      by (now rewrite map_length, row_entries_length).
    pose proof (sorted_nth_lt _ Hs (a - st) (b - st) ltac:(lia) ltac:(lia)) as H.
    rewrite (nth_map_dep fst (row_entries M k) (a - st) (0, 0%num)) in H by (rewrite map_length in L; lia).
    rewrite (nth_map_dep fst (row_entries M k) (b - st) (0, 0%num)) in H by (rewrite map_length in L; lia).
    rewrite !row_entries_nth in H by (rewrite map_length in L; lia). cbn [fst] in H. fold st in H.
    replace (st + (a - st)) with a in H by lia. replace (st + (b - st)) with b in H by lia. exact H.
Qed.

Section Gain.
Variables (n : nat) (PT : csr) (p : probs) (sym : bool) (A : autocov).
Hypothesis HA : built n PT p sym A.

Lemma sorted_row k : no_repetition PT -> k < n -> StronglySorted lt (map fst (row_entries (a_PT A) k)).
Proof.
  intros Hr Hk. destruct (built_inv _ _ _ _ _ HA) as (E & _). destruct HA as (HM & _). rewrite E.
  rewrite (proj2 (sort_indices_spec n PT HM) k Hk). apply sorted_strict; [apply sort_entries_sorted|].
  apply (Permutation_NoDup (Permutation_map fst (Permutation_sym (sort_entries_perm (row_entries PT k))))). apply Hr.
Qed.
Lemma nonempty_row k : row_entries PT k <> [] -> k < n -> row_entries (a_PT A) k <> [].
Proof.
  intros Hr Hk. destruct (built_inv _ _ _ _ _ HA) as (E & _). destruct HA as (HM & _). rewrite E.
  rewrite (proj2 (sort_indices_spec n PT HM) k Hk). intros E'. apply Hr.
  apply Permutation_nil. rewrite <- E'. apply sort_entries_perm.
Qed.
Lemma crossing_spec k idx : k < n -> index_list n idx ->
  crossing A k idx = (sumL (value (a_PT A) k) idx + sumL (fun i => value (a_PT A) i k) idx)%num.
Proof.
  intros Hk [Hn Hb]. destruct (built_inv _ _ _ _ _ HA) as (_ & _ & _ & _ & _ & _ & Hv & Hvc & _).
  unfold crossing. rewrite !fold_add, !row_over by exact Hn.
  rewrite (sumL_ext (fun j => value (a_PTcsc A) k j) (fun i => value (a_PT A) i k)).
  2:{ intros i Hi. rewrite Hvc, Hv by auto. reflexivity. }
  apply f_equal2; [|reflexivity]. apply Qcplus_0_l.
Qed.
Lemma crossing_out_spec k idx : crossing_out A k idx = (- crossing A k idx)%num.
Proof. unfold crossing, crossing_out. rewrite !fold_add, !fold_sub. ring. Qed.

(** row sum plus column sum plus/minus the diagonal, with the p part *)
Definition cross_S k idx : num := (sumL (fun j => toarray A k j) idx + sumL (fun i => toarray A i k) idx)%num.
Lemma diag_found k : k < n -> no_repetition PT -> row_entries PT k <> [] -> diag_search (a_PT A) k = Some (value (a_PT A) k k).
Proof.
  intros Hk Hr Hne. apply (diag_search_spec n (a_PT A) k); [apply (built_inv _ _ _ _ _ HA)|exact Hk|now apply nonempty_row|now apply sorted_row].
Qed.
Lemma moveto_found k idx : k < n -> index_list n idx -> diag_search (a_PT A) k = Some (value (a_PT A) k k) ->
  ac_moveto A k idx = Some (cross_S k idx + toarray A k k)%num.
Proof.
  intros Hk Hi Hd. unfold ac_moveto, delta_PT_moveto. rewrite Hd.
  rewrite crossing_spec by assumption. unfold cross_S, toarray. rewrite !sumL_sub. unfold p0_at.
  destruct (a_p A) as [p1 p2|p1 p2]; f_equal.
  - rewrite !sumL_const. rewrite qn_plus, qn_mult. replace (qn 2) with (1 + 1)%num by qcompute. change (qn 1) with 1%num. ring.
  - rewrite (fold_sums (fun i => (- (nth k p1 0 * nth i p2 0) - (nth i p1 0 * nth k p2 0))%num)) by (intros; ring).
    rewrite (sumL_sub (fun i => (- (nth k p1 0 * nth i p2 0))%num)), sumL_opp. ring.
Qed.
Lemma moveout_found k idx : k < n -> index_list n idx -> diag_search (a_PT A) k = Some (value (a_PT A) k k) ->
  ac_moveout A k idx = Some (toarray A k k - cross_S k idx)%num.
Proof.
  intros Hk Hi Hd. unfold ac_moveout, delta_PT_moveout. rewrite Hd.
  rewrite crossing_out_spec, crossing_spec by assumption. unfold cross_S, toarray. rewrite !sumL_sub. unfold p0_at.
  destruct (a_p A) as [p1 p2|p1 p2]; f_equal.
  - rewrite !sumL_const.
    assert (E : qz (2 * Z.of_nat (length idx) - 1) = (2 * qn (length idx) - 1)%num).
    { apply qc_eq_this. rewrite this_minus, this_mult, this_qn. unfold qz. rewrite !this_Q2Qc.
      unfold Z.sub. rewrite inject_Z_plus, inject_Z_mult. reflexivity. }
    rewrite E. replace 2%num with (1 + 1)%num by qcompute. ring.
  - rewrite (fold_sums (fun i => (nth k p1 0 * nth i p2 0 + nth i p1 0 * nth k p2 0)%num)) by (intros; ring).
    rewrite sumL_add. ring.
Qed.
Lemma moveto_cross k idx : k < n -> index_list n idx -> no_repetition PT -> row_entries PT k <> [] ->
  ac_moveto A k idx = Some (cross_S k idx + toarray A k k)%num.
Proof. intros Hk Hi Hr Hne. apply moveto_found; try assumption. now apply diag_found. Qed.
Lemma moveout_cross k idx : k < n -> index_list n idx -> no_repetition PT -> row_entries PT k <> [] ->
  ac_moveout A k idx = Some (toarray A k k - cross_S k idx)%num.
Proof. intros Hk Hi Hr Hne. apply moveout_found; try assumption. now apply diag_found. Qed.
End Gain.

Lemma gain_in_cross S k idx : ~ In k idx ->
  gain_in S k idx = (sumL (fun j => S k j) idx + sumL (fun i => S i k) idx + S k k)%num.
Proof.
  intros _. unfold gain_in, sum_over. rewrite !sumL_cons.
  rewrite (sumL_ext (fun i => sumL (fun j => S i j) (k :: idx)) (fun i => (S i k + sumL (fun j => S i j) idx)%num))
    by reflexivity.
  rewrite sumL_add. ring.
Qed.
Lemma gain_out_cross S k idx : NoDup idx -> In k idx ->
  gain_out S k idx = (S k k - (sumL (fun j => S k j) idx + sumL (fun i => S i k) idx))%num.
Proof.
  intros Hn Hk. unfold gain_out, sum_over.
  rewrite (sumL_rem (fun i => sumL (fun j => S i j) idx) k idx Hn Hk).
  rewrite (sumL_ext (fun i => sumL (fun j => S i j) idx) (fun i => (S i k + sumL (fun j => S i j) (rem k idx))%num))
    by (intros i _; now rewrite (sumL_rem (fun j => S i j) k idx Hn Hk)).
  rewrite sumL_add. rewrite (sumL_rem (fun i => S i k) k idx Hn Hk). ring.
Qed.
Lemma ac_gains n PT p sym A k idx : built n PT p sym A -> no_repetition PT -> row_entries PT k <> [] ->
  k < n -> index_list n idx ->
  (~ In k idx -> ac_moveto A k idx = Some (gain_in (toarray A) k idx)) /\
  (In k idx -> ac_moveout A k idx = Some (gain_out (toarray A) k idx)).
Proof.
  intros HA Hr Hne Hk Hi. split; intros Hin.
  - rewrite (moveto_cross n PT p sym A HA) by assumption. rewrite gain_in_cross by exact Hin. reflexivity.
  - rewrite (moveout_cross n PT p sym A HA) by assumption. rewrite gain_out_cross by (try assumption; apply Hi). reflexivity.
Qed.
