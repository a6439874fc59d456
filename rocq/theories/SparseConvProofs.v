From Verif Require Import Base SparseModel SparseSpec SparseProofs SparseOpsProofs.

(** * From a full matrix *)
Lemma btos_from_notin nz j : forall k acc, ~ In j nz -> btos_from k nz j acc = acc.
Proof.
  induction nz as [|x r IH]; intros k acc H; [reflexivity|]. simpl.
  destruct (Nat.eqb_spec x j) as [->|]; [exfalso; apply H; now left|]. apply IH. intros Hx. apply H. now right.
Qed.
Lemma btos_from_pos nz j : NoDup nz -> forall k acc b, pos j nz = Some b -> btos_from k nz j acc = k + b.
Proof.
  intros Hn. induction Hn as [|x r Hni Hnd IH]; intros k acc b H; simpl in *; [discriminate|].
  rewrite (Nat.eqb_sym x j). destruct (Nat.eqb_spec j x) as [->|].
  - injection H as <-. rewrite btos_from_notin by assumption. lia.
  - destruct (pos j r) as [b'|] eqn:E; [|discriminate]. injection H as <-. rewrite (IH _ _ b' eq_refl). lia.
Qed.
(** a sum over the stored elements of a row is a sum over the columns *)
Lemma sum_by_column n M i (h : nat -> num) : csr_ok n M -> i < n ->
  sumL (fun e => (h (fst e) * snd e)%num) (row_entries M i) = sumN n (fun c => (h c * value M i c)%num).
Proof.
  intros HM Hi. unfold sumN.
  rewrite (sumL_ext (fun c => (h c * value M i c)%num)
    (fun c => sumL (fun e => if fst e =? c then (h (fst e) * snd e)%num else 0%num) (row_entries M i))).
  2:{ intros c _. unfold value. rewrite <- sumL_scal_l. apply sumL_ext. intros e _.
      destruct (Nat.eqb_spec (fst e) c) as [->|]; ring. }
  rewrite (sumL_swap (fun c e => if fst e =? c then (h (fst e) * snd e)%num else 0%num)).
  apply sumL_ext. intros e He.
  rewrite (sumL_ext _ (fun c => if c =? fst e then (h (fst e) * snd e)%num else 0%num))
    by (intros c _; rewrite (Nat.eqb_sym c); reflexivity).
  fold (sumN n (fun c => if c =? fst e then (h (fst e) * snd e)%num else 0%num)).
  symmetry. apply (sumN_delta n (fst e) (fun _ => (h (fst e) * snd e)%num)).
  eapply row_entries_col; eassumption.
Qed.
Lemma stored_sum_value n M i : csr_ok n M -> i < n -> stored_sum M i = sumN n (value M i).
Proof.
  intros HM Hi. unfold stored_sum.
  rewrite (sumL_ext _ (fun e => ((fun _ => 1) (fst e) * snd e)%num)) by (intros e _; ring).
  rewrite (sum_by_column n M i (fun _ => 1%num) HM Hi). apply sumN_ext. intros; ring.
Qed.

Lemma value_empty_row M i j : row_entries M i = [] -> value M i j = 0%num.
Proof. intros H. unfold value. rewrite H. reflexivity. Qed.

Lemma from_full_kernel_spec n T nz d : csr_ok n T -> d <> 0%num -> StronglySorted lt nz ->
  (forall i, In i nz -> i < n) -> diagonal_outside n T nz d ->
  exists A, from_full_kernel nz T d = Some A /\ ssm_ok A /\ s_size A = n /\ s_nz A = nz /\ s_diag A = d /\
    forall i j, i < n -> j < n -> rep A i j = value T i j.
Proof.
  intros HT Hd Hs Hb Hdiag. unfold from_full_kernel.
  set (rows := map _ nz). assert (Hnd := sorted_NoDup _ Hs).
  assert (Hptr : length (c_ptr T) = S n) by apply HT.
  assert (Hlen : total rows = nsum (fun i => length (row_entries T i)) nz).
  { unfold rows. rewrite total_map. fold (nsum (fun a => length (map (fun e : nat * num => (btos nz (fst e), snd e)) (row_entries T a))) nz).
    apply nsum_ext. intros i _. apply map_length. }
  assert (Hall : length (c_data T) = nsum (fun i => length (row_entries T i)) (seq 0 n)).
  { rewrite (rows_total n T HT). fold (total (map (row_entries T) (seq 0 n))). apply total_map. }
  assert (Hbuf : total rows + n <= length (c_data T) + length nz).
  { rewrite Hlen, Hall, (nsum_split (fun i => memb i nz) _ (seq 0 n)).
    assert (Hp : Permutation (filter (fun i => memb i nz) (seq 0 n)) nz).
    { apply NoDup_Permutation; [apply filter_NoDup, seq_NoDup|exact Hnd|].
      intros i. rewrite filter_In, seq_In_iff, memb_In. split; [tauto|]. intros Hi. split; [now apply Hb|exact Hi]. }
    rewrite (nsum_perm _ _ _ Hp).
    assert (Hle : nsum (fun _ => 1) (filter (fun a => negb (memb a nz)) (seq 0 n)) <=
                  nsum (fun i => length (row_entries T i)) (filter (fun a => negb (memb a nz)) (seq 0 n))).
    { apply nsum_le. intros i Hi. apply filter_In in Hi. destruct Hi as [Hi Hm]. apply seq_In_iff in Hi.
      destruct (row_entries T i) eqn:E; [|simpl; lia]. exfalso. apply Hd.
      assert (Hv := Hdiag i i Hi Hi). rewrite Nat.eqb_refl in Hv. rewrite <- Hv; [now apply value_empty_row|].
      intros [Hx _]. apply memb_In in Hx. rewrite Hx in Hm. discriminate. }
    rewrite nsum_const in Hle.
    assert (Hc := filter_length (fun i => memb i nz) (seq 0 n)). rewrite seq_length in Hc.
    rewrite (Permutation_length Hp) in Hc. lia. }
  destruct (Z.leb_spec (Z.of_nat (total rows)) (Z.of_nat (length (c_data T)) - Z.of_nat (length (c_ptr T)) + 1 + Z.of_nat (length nz))) as [_|Hgt].
  2:{ rewrite Hptr in Hgt. lia. }
  assert (Hlr : length rows = length nz) by apply map_length.
  assert (Hbt : forall c b, pos c nz = Some b -> btos nz c = b).
  { intros c b H. unfold btos. now rewrite (btos_from_pos nz c Hnd _ _ b H). }
  rewrite Hptr. replace (S n - 1) with n by lia.
  destruct (ssm_init_ok n (of_rows rows) nz d) as [-> Hok].
  - apply csr_ok_of_rows; [exact Hlr|]. intros r e Hr He. unfold rows in Hr. apply in_map_iff in Hr.
    destruct Hr as (i & <- & Hi). apply in_map_iff in He. destruct He as (e' & <- & He'). cbn [fst].
    destruct (pos (fst e') nz) as [b|] eqn:E.
    + rewrite (Hbt _ _ E). now apply pos_lt in E.
    + unfold btos. rewrite btos_from_notin by (now apply pos_None). destruct nz; [destruct Hi|simpl; lia].
  - exact Hs.
  - exact Hb.
  - eexists. split; [reflexivity|]. split; [exact Hok|]. repeat (split; [reflexivity|]).
    intros i j Hi Hj. unfold rep. cbn [s_nz s_small s_diag].
    destruct (pos i nz) as [a|] eqn:Ea.
    2:{ symmetry. apply Hdiag; [exact Hi|exact Hj|]. apply pos_None in Ea. tauto. }
    destruct (pos j nz) as [b|] eqn:Eb.
    2:{ symmetry. apply Hdiag; [exact Hi|exact Hj|]. apply pos_None in Eb. tauto. }
    assert (Ha := pos_lt _ _ _ Ea).
    rewrite value_rows by lia. unfold rows. rewrite (nth_map_dep _ nz a 0) by exact Ha.
    rewrite (pos_nth _ _ _ 0 Ea).
    rewrite (scattered_map (fun c => btos nz c) (fun v => v)).
    rewrite (sumL_ext _ (fun e => ((if btos nz (fst e) =? b then 1 else 0) * snd e)%num))
      by (intros e _; destruct (btos nz (fst e) =? b); ring).
    rewrite (sum_by_column n T i (fun c => if btos nz c =? b then 1%num else 0%num) HT Hi).
    rewrite (sumN_ext n _ (fun c => if c =? j then value T i c else 0%num)).
    + now apply sumN_delta.
    + intros c Hc. destruct (Nat.eqb_spec c j) as [->|Hne].
      * rewrite (Hbt _ _ Eb), Nat.eqb_refl. ring.
      * destruct (pos c nz) as [b'|] eqn:Ec.
        -- rewrite (Hbt _ _ Ec). destruct (Nat.eqb_spec b' b) as [->|]; [|ring].
           exfalso. apply Hne. rewrite <- (pos_nth _ _ _ 0 Ec), <- (pos_nth _ _ _ 0 Eb). reflexivity.
        -- rewrite (Hdiag i c Hi Hc) by (apply pos_None in Ec; tauto).
           destruct (Nat.eqb_spec i c) as [->|]; [congruence|ring].
Qed.

Lemma filter_sorted (p : nat -> bool) l : StronglySorted lt l -> StronglySorted lt (filter p l).
Proof.
  intros Hs. induction Hs as [|a l Hs IH Hf]; simpl; [constructor|]. destruct (p a); [|exact IH].
  constructor; [exact IH|]. apply Forall_forall. intros x Hx. apply filter_In in Hx.
  rewrite Forall_forall in Hf. now apply Hf.
Qed.
Lemma seq_sorted a n : StronglySorted lt (seq a n).
Proof.
  revert a. induction n as [|n IH]; intros a; simpl; constructor; [apply IH|].
  apply Forall_forall. intros x Hx. apply in_seq in Hx. lia.
Qed.
Lemma nz_rowcols_spec n T d :
  StronglySorted lt (nz_rowcols_of n T d) /\ (forall i, In i (nz_rowcols_of n T d) -> i < n) /\
  diagonal_outside n T (nz_rowcols_of n T d) d.
Proof.
  split; [apply filter_sorted, seq_sorted|]. split.
  { intros i Hi. apply filter_In in Hi. now apply seq_In_iff. }
  intros i j Hi Hj Hn. destruct (Qc_eq_dec (value T i j) (if i =? j then d else 0%num)) as [|Hne]; [assumption|].
  exfalso. apply Hn. unfold nz_rowcols_of. rewrite !filter_In, !seq_In_iff, !existsb_exists. split.
  - split; [exact Hi|]. exists j. split; [now apply seq_In_iff|].
    destruct (qeqb_spec (value T i j) (if i =? j then d else 0%num)); [contradiction|reflexivity].
  - split; [exact Hj|]. exists i. split; [now apply seq_In_iff|].
    rewrite (Nat.eqb_sym j i). destruct (qeqb_spec (value T i j) (if i =? j then d else 0%num)); [contradiction|].
    simpl. apply orb_true_r.
Qed.

(** * Row normalisation *)
Lemma set_range_length data f range : length (set_range data f range) = length data.
Proof.
  unfold set_range. revert data. induction range as [|j r IH]; intros data; simpl; [reflexivity|].
  rewrite IH. apply upd_length.
Qed.
Lemma set_range_nth f range : forall data k, NoDup range -> (forall j, In j range -> j < length data) ->
  nth k (set_range data f range) 0%num = if memb k range then f (nth k data 0%num) else nth k data 0%num.
Proof.
  induction range as [|j r IH]; intros data k Hn Hb; [reflexivity|].
  inversion Hn as [|? ? Hni Hnd]; subst. unfold set_range. cbn [fold_left].
  fold (set_range (upd data j (f (nth j data 0%num))) f r).
  rewrite IH; [|exact Hnd|intros; rewrite upd_length; apply Hb; now right].
  change (memb k (j :: r)) with ((k =? j) || memb k r).
  destruct (Nat.eqb_spec k j) as [->|Hne].
  - rewrite (proj2 (memb_false j r) Hni). cbn [orb]. apply nth_upd_eq. apply Hb. now left.
  - rewrite nth_upd_neq by congruence. reflexivity.
Qed.
Definition scaled (M : csr) (row_sum : nat -> num) (i : nat) (v : num) : num :=
  let s := stored_sum M i in
  if qeqb s 0%num then v
  else if qeqb (row_sum i) 0%num then (v - s / qn (length (row_entries M i)))%num
  else (v / (s / row_sum i))%num.
Lemma row_range_mono n M i i' : csr_ok n M -> i < i' -> i' < n -> nth (S i) (c_ptr M) 0 <= nth i' (c_ptr M) 0.
Proof.
  intros (Hl & H0 & Hmono & Hn & _) Hi Hi'.
  assert (Hg : forall m, i < m -> m <= n -> nth (S i) (c_ptr M) 0 <= nth m (c_ptr M) 0).
  { induction m as [|m IHm]; intros H1 H2; [lia|].
    destruct (Nat.eq_dec i m) as [->|]; [lia|]. specialize (IHm ltac:(lia) ltac:(lia)).
    specialize (Hmono m ltac:(lia)). lia. }
  apply Hg; lia.
Qed.
Lemma row_range_In M i k : In k (row_range (c_ptr M) i) <->
  nth i (c_ptr M) 0 <= k < nth i (c_ptr M) 0 + (nth (S i) (c_ptr M) 0 - nth i (c_ptr M) 0).
Proof. apply in_seq. Qed.
Lemma stored_sum_range M i : stored_sum M i = sumL (fun j => nth j (c_data M) 0%num) (row_range (c_ptr M) i).
Proof. unfold stored_sum, row_entries. rewrite sumL_map. reflexivity. Qed.

Section Norm.
Variables (n : nat) (M : csr) (step : list num -> nat -> list num) (g : nat -> num -> num).
Hypothesis HM : csr_ok n M.
(** one row of a kernel *)
Hypothesis Hstep : forall data i, i < n -> length data = length (c_data M) ->
  (forall k, In k (row_range (c_ptr M) i) -> nth k data 0%num = nth k (c_data M) 0%num) ->
  length (step data i) = length data /\
  forall k, nth k (step data i) 0%num = if memb k (row_range (c_ptr M) i) then g i (nth k data 0%num) else nth k data 0%num.
Lemma norm_fold m : m <= n ->
  let data' := fold_left step (seq 0 m) (c_data M) in
  length data' = length (c_data M) /\
  forall i k, i < n -> In k (row_range (c_ptr M) i) ->
    nth k data' 0%num = if i <? m then g i (nth k (c_data M) 0%num) else nth k (c_data M) 0%num.
Proof.
  induction m as [|m IH]; intros Hm; cbn zeta.
  - split; [reflexivity|]. intros i k _ _. reflexivity.
  - rewrite seq_S, fold_left_app, Nat.add_0_l. cbn [fold_left].
    destruct (IH ltac:(lia)) as [Hl Hv]. set (data := fold_left step (seq 0 m) (c_data M)) in *.
    destruct (Hstep data m ltac:(lia) Hl) as [Hl' Hv'].
    { intros k Hk. rewrite (Hv m k ltac:(lia) Hk), Nat.ltb_irrefl. reflexivity. }
    split; [lia|]. intros i k Hi Hk. rewrite Hv'.
    destruct (memb_spec k (row_range (c_ptr M) m)) as [Hin|Hnin].
    + assert (i = m) as ->.
      { apply row_range_In in Hk, Hin. pose proof (row_bounds n M i HM Hi). pose proof (row_bounds n M m HM ltac:(lia)).
        destruct (Nat.lt_trichotomy i m) as [Hlt|[?|Hlt]]; [|assumption|].
        - pose proof (row_range_mono n M i m HM Hlt ltac:(lia)). lia.
        - pose proof (row_range_mono n M m i HM Hlt ltac:(lia)). lia. }
      rewrite (Hv m k Hi Hk), Nat.ltb_irrefl. destruct (Nat.ltb_spec m (S m)); [reflexivity|lia].
    + assert (i <> m) by congruence. rewrite (Hv i k Hi Hk).
      destruct (Nat.ltb_spec i m), (Nat.ltb_spec i (S m)); try reflexivity; lia.
Qed.
Lemma norm_rows : let M' := mkCsr (fold_left step (seq 0 n) (c_data M)) (c_idx M) (c_ptr M) in
  csr_ok n M' /\ forall i, i < n -> row_entries M' i = map (fun e => (fst e, g i (snd e))) (row_entries M i).
Proof.
  cbn zeta. destruct (norm_fold n (le_n n)) as [Hl Hv]. split; [now apply csr_ok_data|].
  intros i Hi. unfold row_entries. cbn [c_data c_idx c_ptr]. rewrite map_map. apply map_ext_in.
  intros k Hk. cbn [fst snd]. f_equal. rewrite (Hv i k Hi Hk). destruct (Nat.ltb_spec i n); [reflexivity|lia].
Qed.
End Norm.

Lemma normalise_rows n M row_sum : csr_ok n M ->
  csr_ok n (csr_row_normalise M n row_sum) /\
  forall i, i < n -> row_entries (csr_row_normalise M n row_sum) i =
    map (fun e => (fst e, scaled M row_sum i (snd e))) (row_entries M i).
Proof.
  intros HM. unfold csr_row_normalise. apply (norm_rows n M _ (scaled M row_sum) HM).
  intros data i Hi Hl Hk. unfold normalise_row.
  assert (Hs : sumL (fun j => nth j data 0%num) (row_range (c_ptr M) i) = stored_sum M i).
  { rewrite stored_sum_range. apply sumL_ext. exact Hk. }
  rewrite Hs.
  assert (Hn : NoDup (row_range (c_ptr M) i)) by apply seq_NoDup.
  assert (Hb : forall j, In j (row_range (c_ptr M) i) -> j < length data).
  { intros j Hj. apply row_range_In in Hj. pose proof (row_bounds n M i HM Hi). lia. }
  assert (Hlen : length (row_entries M i) = nth (S i) (c_ptr M) 0 - nth i (c_ptr M) 0).
  { unfold row_entries, row_range. now rewrite map_length, seq_length. }
  unfold scaled. rewrite Hlen.
  destruct (qeqb (stored_sum M i) 0%num).
  - split; [reflexivity|]. intros k. destruct (memb k _); reflexivity.
  - destruct (qeqb (row_sum i) 0%num); (split; [apply set_range_length|]; intros k; now rewrite set_range_nth).
Qed.
Lemma subst_normalise_rows n M row_sum : csr_ok n M -> row_sum <> 0%num ->
  subst_row_normalise M n row_sum = csr_row_normalise M n (fun _ => row_sum).
Proof.
  intros _ Hr. unfold subst_row_normalise, csr_row_normalise. f_equal.
  assert (H : forall l data, fold_left (subst_normalise_row (c_ptr M) row_sum) l data =
                             fold_left (normalise_row (c_ptr M) (fun _ => row_sum)) l data).
  { induction l as [|i l IH]; intros data; [reflexivity|]. cbn [fold_left]. rewrite IH. f_equal.
    unfold subst_normalise_row, normalise_row. destruct (qeqb_spec row_sum 0%num); [contradiction|reflexivity]. }
  apply H.
Qed.

Lemma scaled_sum n M row_sum i : csr_ok n M -> i < n -> stored_sum M i <> 0%num ->
  stored_sum (csr_row_normalise M n row_sum) i = row_sum i.
Proof.
  intros HM Hi Hs. destruct (normalise_rows n M row_sum HM) as [_ Hr]. unfold stored_sum at 1. rewrite Hr by exact Hi.
  rewrite sumL_map. cbn [snd]. unfold scaled.
  destruct (qeqb_spec (stored_sum M i) 0%num); [contradiction|].
  destruct (qeqb_spec (row_sum i) 0%num) as [->|Hr0].
  - rewrite (sumL_ext _ (fun e => (snd e + (- (stored_sum M i / qn (length (row_entries M i)))))%num)) by (intros; ring).
    rewrite sumL_add, sumL_const. fold (stored_sum M i).
    assert (Hn : qn (length (row_entries M i)) <> 0%num).
    { intros E. rewrite <- qn_0 in E. apply qn_inj in E. apply Hs. unfold stored_sum.
      destruct (row_entries M i); [reflexivity|discriminate]. }
    field. exact Hn.
  - rewrite (sumL_ext _ (fun e => (snd e * (row_sum i / stored_sum M i))%num)).
    + rewrite sumL_scal_r. fold (stored_sum M i). field. assumption.
    + intros e _. field. split; assumption.
Qed.
Lemma scaled_value n M row_sum i j : csr_ok n M -> i < n -> row_sum i <> 0%num ->
  value (csr_row_normalise M n row_sum) i j =
  if qeqb (stored_sum M i) 0%num then value M i j else (value M i j * (row_sum i / stored_sum M i))%num.
Proof.
  intros HM Hi Hr0. destruct (normalise_rows n M row_sum HM) as [_ Hr]. unfold value at 1. rewrite Hr by exact Hi.
  rewrite sumL_map. cbn [fst snd]. unfold scaled.
  destruct (qeqb_spec (stored_sum M i) 0%num) as [|Hs]; [reflexivity|].
  destruct (qeqb_spec (row_sum i) 0%num); [contradiction|].
  unfold value. rewrite <- sumL_scal_r. apply sumL_ext. intros e _.
  destruct (fst e =? j); [field; split; assumption|ring].
Qed.
Lemma zero_row_untouched n M row_sum i : csr_ok n M -> i < n -> stored_sum M i = 0%num ->
  row_entries (csr_row_normalise M n row_sum) i = row_entries M i.
Proof.
  intros HM Hi Hs. destruct (normalise_rows n M row_sum HM) as [_ Hr]. rewrite Hr by exact Hi.
  rewrite <- (map_id (row_entries M i)) at 2. apply map_ext. intros [c v]. unfold scaled. cbn [fst snd].
  destruct (qeqb_spec (stored_sum M i) 0%num); [reflexivity|contradiction].
Qed.
(** arrays are determined by their rows *)
Lemma csr_rows_eq n M N : csr_ok n M -> csr_ok n N -> c_ptr M = c_ptr N -> c_idx M = c_idx N ->
  (forall i, i < n -> row_entries M i = row_entries N i) -> M = N.
Proof.
  intros HM HN Hp Hx Hr. destruct M as [dM xM pM], N as [dN xN pN]. cbn [c_ptr c_idx] in Hp, Hx. subst pN xN. f_equal.
  assert (Hlen : length dM = length dN).
  { pose proof (proj1 (proj2 (proj2 (proj2 HM)))). pose proof (proj1 (proj2 (proj2 (proj2 HN)))).
    cbn [c_ptr c_data] in *. congruence. }
  apply (nth_ext dM dN 0%num 0%num Hlen). intros k Hk.
  destruct HM as (Hl & H0 & Hmono & Hn & _). cbn [c_ptr c_data c_idx] in *. rewrite <- Hn in Hk.
  assert (Hfind : forall m, m <= n -> k < nth m pM 0 -> exists i, i < m /\ nth i pM 0 <= k < nth (S i) pM 0).
  { induction m as [|m IH]; intros Hm Hkm; [lia|].
    destruct (Nat.lt_ge_cases k (nth m pM 0)) as [Hlt|Hge].
    - destruct (IH ltac:(lia) Hlt) as (i & ? & ?). exists i. split; [lia|assumption].
    - exists m. split; [lia|]. split; assumption. }
  destruct (Hfind n (le_n n) Hk) as (i & Hi & Hki). specialize (Hr i Hi).
  unfold row_entries, row_range in Hr. cbn [c_ptr c_data c_idx] in Hr.
  assert (He : forall a, In a (seq (nth i pM 0) (nth (S i) pM 0 - nth i pM 0)) -> nth a dM 0%num = nth a dN 0%num).
  { revert Hr. generalize (seq (nth i pM 0) (nth (S i) pM 0 - nth i pM 0)). intros l.
    induction l as [|a l IH]; intros Hr a' Ha; [destruct Ha|]. simpl in Hr. injection Hr as E Hr.
    destruct Ha as [<-|Ha]; [exact E|now apply IH]. }
  apply He. apply in_seq. lia.
Qed.
Lemma normalise_idem n M row_sum : csr_ok n M -> (forall i, i < n -> row_sum i <> 0%num) ->
  csr_row_normalise (csr_row_normalise M n row_sum) n row_sum = csr_row_normalise M n row_sum.
Proof.
  intros HM Hr0. destruct (normalise_rows n M row_sum HM) as [HM1 Hr1].
  destruct (normalise_rows n _ row_sum HM1) as [HM2 Hr2].
  apply (csr_rows_eq n); [exact HM2|exact HM1|reflexivity|reflexivity|].
  intros i Hi. rewrite (Hr2 i Hi). rewrite <- map_id. apply map_ext. intros [c v]. unfold scaled. cbn [fst snd].
  destruct (qeqb_spec (stored_sum (csr_row_normalise M n row_sum) i) 0%num) as [|Hne]; [reflexivity|].
  destruct (qeqb_spec (row_sum i) 0%num) as [E|]; [now apply Hr0 in E|].
  rewrite (scaled_sum n M row_sum i HM Hi).
  - f_equal. field. split; [now apply Hr0|discriminate].
  - intros Hz. apply Hne. unfold stored_sum. rewrite (zero_row_untouched n M row_sum i HM Hi Hz). exact Hz.
Qed.

(** * set_to_zeroes *)
Lemma fold_qmax_spec l : forall a, (forall x, In x (a :: l) -> (x <= fold_left qmax l a)%num) /\ In (fold_left qmax l a) (a :: l).
Proof.
  induction l as [|b l IH]; intros a; simpl.
  - split; [intros x [<-|[]]; qlra|now left].
  - destruct (IH (qmax a b)) as [H1 H2]. split.
    + assert (Hm : (a <= qmax a b)%num /\ (b <= qmax a b)%num).
      { unfold qmax. destruct (qleb_spec a b); split; qlra. }
      assert (Hq := H1 (qmax a b) (or_introl eq_refl)).
      intros x [<-|[<-|Hx]]; [| |apply H1; now right]; qlra.
    + destruct H2 as [H2|H2]; [|right; now right]. rewrite <- H2. unfold qmax. destruct (qleb a b); [right; now left|now left].
Qed.
Lemma fold_qmin_spec l : forall a, (forall x, In x (a :: l) -> (fold_left qmin l a <= x)%num) /\ In (fold_left qmin l a) (a :: l).
Proof.
  induction l as [|b l IH]; intros a; simpl.
  - split; [intros x [<-|[]]; qlra|now left].
  - destruct (IH (qmin a b)) as [H1 H2]. split.
    + assert (Hm : (qmin a b <= a)%num /\ (qmin a b <= b)%num).
      { unfold qmin. destruct (qleb_spec a b); split; qlra. }
      assert (Hq := H1 (qmin a b) (or_introl eq_refl)).
      intros x [<-|[<-|Hx]]; [| |apply H1; now right]; qlra.
    + destruct H2 as [H2|H2]; [|right; now right]. rewrite <- H2. unfold qmin. destruct (qleb a b); [now left|right; now left].
Qed.
Lemma largest_code M : c_data M <> [] ->
  largest M (qmax (qabs (list_min (c_data M))) (qabs (list_max (c_data M)))).
Proof.
  intros Hne. destruct (c_data M) as [|a l] eqn:E; [congruence|]. unfold largest. rewrite E. cbn [list_min list_max].
  destruct (fold_qmax_spec l a) as [Hx1 Hx2]. destruct (fold_qmin_spec l a) as [Hn1 Hn2].
  set (mx := fold_left qmax l a) in *. set (mn := fold_left qmin l a) in *. split.
  - intros v Hv. specialize (Hx1 v Hv). specialize (Hn1 v Hv).
    unfold qmax, qabs. destruct (qltb_spec mn 0%num), (qltb_spec mx 0%num), (qltb_spec v 0%num);
      match goal with |- context [qleb ?x ?y] => destruct (qleb_spec x y) end; qlra.
  - unfold qmax. destruct (qleb (qabs mn) (qabs mx)); [exists mx|exists mn]; split; auto.
Qed.
Lemma largest_unique M m m' : largest M m -> largest M m' -> m = m'.
Proof.
  intros [H1 (v & Hv & E)] [H1' (v' & Hv' & E')]. specialize (H1 v' Hv'). specialize (H1' v Hv). rewrite E in H1'. rewrite E' in H1. qlra.
Qed.
Lemma eliminate_zeros_spec n M : csr_ok n M -> csr_ok n (eliminate_zeros M) /\
  forall i, i < n -> row_entries (eliminate_zeros M) i = filter (fun e => negb (qeqb (snd e) 0%num)) (row_entries M i).
Proof.
  intros HM. unfold eliminate_zeros. rewrite (proj1 HM). replace (S n - 1) with n by lia. split.
  - apply csr_ok_of_rows; [now rewrite map_length, seq_length|].
    intros r e Hr He. apply in_map_iff in Hr. destruct Hr as (i & <- & Hi). apply filter_In in He.
    apply seq_In_iff in Hi. eapply row_entries_col; [exact HM|exact Hi|apply He].
  - intros i Hi. rewrite row_entries_of_rows by (now rewrite map_length, seq_length).
    rewrite (nth_map_dep _ (seq 0 n) i 0) by (now rewrite seq_length). now rewrite seq_nth.
Qed.
Lemma eliminate_zeros_value n M i j : csr_ok n M -> i < n -> value (eliminate_zeros M) i j = value M i j.
Proof.
  intros HM Hi. unfold value. rewrite (proj2 (eliminate_zeros_spec n M HM) i Hi), sumL_filter.
  apply sumL_ext. intros e _. destruct (qeqb_spec (snd e) 0%num) as [E|]; simpl; [|reflexivity].
  rewrite E. destruct (fst e =? j); reflexivity.
Qed.
(** with one stored element per position, the value is that element or 0 *)
Lemma value_single M i j : NoDup (map fst (row_entries M i)) ->
  (exists v, In (j, v) (row_entries M i) /\ value M i j = v) \/
  ((forall v, ~ In (j, v) (row_entries M i)) /\ value M i j = 0%num).
Proof.
  unfold value. generalize (row_entries M i). induction l as [|[c v] l IH]; intros Hn.
  - right. split; [intros v []|reflexivity].
  - simpl in Hn. inversion Hn as [|? ? Hni Hnd]; subst. rewrite sumL_cons. cbn [fst snd].
    destruct (Nat.eqb_spec c j) as [->|Hne].
    + left. exists v. split; [now left|]. rewrite sumL_zero; [ring|]. intros [c' v'] He. cbn [fst snd].
      destruct (Nat.eqb_spec c' j) as [->|]; [|reflexivity]. exfalso. apply Hni. apply (in_map fst) in He. exact He.
    + destruct (IH Hnd) as [(w & Hw & E)|[Hw E]].
      * left. exists w. split; [now right|]. rewrite E. ring.
      * right. split; [|rewrite E; ring]. intros w [Hx|Hx]; [congruence|now apply (Hw w)].
Qed.
Lemma row_entry_data n M i e : csr_ok n M -> i < n -> In e (row_entries M i) -> In (snd e) (c_data M).
Proof.
  intros HM Hi He. unfold row_entries in He. apply in_map_iff in He. destruct He as (k & <- & Hk). cbn [snd].
  apply nth_In. apply row_range_In in Hk. pose proof (row_bounds n M i HM Hi). lia.
Qed.
Definition cut (tol' : num) (use_abs : bool) (v : num) : num :=
  if (if use_abs then qleb (qabs v) tol' else qleb v tol') then 0%num else v.
Lemma set_to_zeroes_spec n M tol relative use_abs m : csr_ok n M -> no_repetition M -> (0 <= tol)%num ->
  use_abs = true \/ (forall v, In v (c_data M) -> (0 <= v)%num) ->
  (c_data M <> [] -> largest M m) ->
  csr_ok n (set_to_zeroes M tol relative use_abs) /\
  forall i j, i < n -> j < n ->
    value (set_to_zeroes M tol relative use_abs) i j =
    if qleb (qabs (value M i j)) (if relative then tol * m else tol)%num then 0%num else value M i j.
Proof.
  intros HM Hnr Htol Habs Hm. unfold set_to_zeroes.
  destruct (c_data M) as [|x l] eqn:Ed.
  - split; [exact HM|]. intros i j Hi Hj.
    assert (E : row_entries M i = []).
    { destruct (row_entries M i) as [|e r] eqn:E; [reflexivity|].
      assert (H : In (snd e) (c_data M)) by (eapply row_entry_data; [exact HM|exact Hi|rewrite E; now left]).
      rewrite Ed in H. destruct H. }
    rewrite (value_empty_row M i j E). destruct (qleb _ _); reflexivity.
  - specialize (Hm ltac:(discriminate)). rewrite <- Ed in *.
    assert (Hne : c_data M <> []) by (rewrite Ed; discriminate).
    rewrite <- (largest_unique M _ _ Hm (largest_code M Hne)).
    set (tol' := (if relative then tol * m else tol)%num).
    assert (Htol' : (0 <= tol')%num).
    { unfold tol'. destruct relative; [|exact Htol]. apply qmult_nonneg; [exact Htol|].
      destruct Hm as [_ (v & _ & <-)]. unfold qabs. destruct (qltb_spec v 0%num); qlra. }
    fold (cut tol' use_abs).
    set (M1 := mkCsr (map (cut tol' use_abs) (c_data M)) (c_idx M) (c_ptr M)).
    change (mkCsr (map (fun v => _) (c_data M)) (c_idx M) (c_ptr M)) with M1.
    assert (HM1 : csr_ok n M1) by (apply csr_ok_data; [exact HM|apply map_length]).
    split; [apply eliminate_zeros_spec, HM1|]. intros i j Hi Hj.
    rewrite (eliminate_zeros_value n M1 i j HM1 Hi).
    assert (Hr1 : row_entries M1 i = map (fun e => (fst e, cut tol' use_abs (snd e))) (row_entries M i))
      by (apply (row_entries_map_data n M _ i HM Hi)).
    assert (Hn1 : NoDup (map fst (row_entries M1 i))).
    { rewrite Hr1, map_map. apply Hnr. }
    destruct (value_single M i j (Hnr i)) as [(v & Hv & ->)|[Hv ->]].
    + assert (Hin1 : In (j, cut tol' use_abs v) (row_entries M1 i)).
      { rewrite Hr1. apply in_map_iff. exists (j, v). split; [reflexivity|exact Hv]. }
      destruct (value_single M1 i j Hn1) as [(w & Hw & ->)|[Hw _]]; [|now apply Hw in Hin1].
      assert (w = cut tol' use_abs v) as ->.
      { clear -Hn1 Hw Hin1. revert Hn1 Hw Hin1. generalize (row_entries M1 i) (cut tol' use_abs v). intros l x.
        induction l as [|[c y] l IH]; intros Hn Hw Hx; [destruct Hw|]. simpl in Hn. inversion Hn as [|? ? Hni Hnd]; subst.
        destruct Hw as [Hw|Hw], Hx as [Hx|Hx].
        - congruence.
        - exfalso. apply Hni. injection Hw as -> _. apply (in_map fst) in Hx. exact Hx.
        - exfalso. apply Hni. injection Hx as -> _. apply (in_map fst) in Hw. exact Hw.
        - now apply IH. }
      unfold cut. destruct Habs as [->|Hpos]; [reflexivity|].
      destruct use_abs; [reflexivity|].
      assert (H0 : (0 <= v)%num) by (apply Hpos; apply (row_entry_data n M i (j, v) HM Hi Hv)).
      unfold qabs. destruct (qltb_spec v 0%num); [qlra|reflexivity].
    + destruct (value_single M1 i j Hn1) as [(w & Hw & _)|[_ ->]].
      * exfalso. rewrite Hr1 in Hw. apply in_map_iff in Hw. destruct Hw as ([c y] & E & He). injection E as -> _.
        now apply Hv in He.
      * destruct (qleb _ _); reflexivity.
Qed.

(** * The fallback kernels *)
Lemma subst_from_full_agrees nz T d :
  (forall i e, In i nz -> In e (row_entries T i) -> In (fst e) nz) ->
  subst_from_full_kernel nz T d = from_full_kernel nz T d.
Proof.
  intros H. unfold subst_from_full_kernel.
  assert (E : forallb (fun tb => forallb (fun e => memb (fst e) nz) (row_entries T tb)) nz = true).
  { apply forallb_forall. intros i Hi. apply forallb_forall. intros e He. apply memb_In. eauto. }
  now rewrite E.
Qed.

(** * What a result represents *)
Lemma represents_rep o C n f : o = Some C -> ssm_ok C -> s_size C = n ->
  (forall i j, i < n -> j < n -> rep C i j = f i j) -> represents o n f.
Proof.
  intros E Hok Hsz Hv. exists C. split; [exact E|]. split; [exact Hok|]. split; [exact Hsz|].
  destruct (to_full_spec C Hok) as (F & EF & HF & HvF). exists F. split; [exact EF|]. split; [exact HF|].
  intros i j Hi Hj. rewrite HvF by assumption. apply Hv; now rewrite <- Hsz.
Qed.

(** * Row normalisation of the represented matrix *)
Lemma ssm_row_normalise_spec A r : ssm_ok A -> r <> 0%num -> s_diag A <> 0%num ->
  ssm_ok (ssm_row_normalise A r) /\
  forall i j, i < s_size A -> j < s_size A ->
    let s := sumN (s_size A) (rep A i) in
    rep (ssm_row_normalise A r) i j = if qeqb s 0%num then rep A i j else (rep A i j * (r / s))%num.
Proof.
  intros (HM & Hs & Hb) Hr Hd. unfold ssm_row_normalise. rewrite (proj1 HM). replace (S (length (s_nz A)) - 1) with (length (s_nz A)) by lia.
  set (M' := csr_row_normalise (s_small A) (length (s_nz A)) (fun _ => r)).
  destruct (normalise_rows (length (s_nz A)) (s_small A) (fun _ => r) HM) as [HM' _]. fold M' in HM'.
  split; [split; [exact HM'|split; assumption]|].
  intros i j Hi Hj. cbn zeta. unfold rep at 1. cbn [s_nz s_small s_diag].
  assert (Hnd := sorted_NoDup _ Hs).
  destruct (pos i (s_nz A)) as [a|] eqn:Ea.
  - assert (Ha := pos_lt _ _ _ Ea).
    assert (Hsum : sumN (s_size A) (rep A i) = stored_sum (s_small A) a).
    { rewrite (stored_sum_value _ _ _ HM Ha). unfold sumN.
      rewrite (sumL_ext (rep A i) (fun k => if memb k (s_nz A) then rep A i k else 0%num)).
      - rewrite <- sumL_filter. rewrite (sumL_perm (rep A i) _ (s_nz A)).
        + rewrite (sumL_nth (s_nz A) _ 0). apply sumN_ext. intros k Hk. unfold rep. rewrite Ea.
          now rewrite pos_of_nth.
        + apply NoDup_Permutation; [apply filter_NoDup, seq_NoDup|exact Hnd|].
          intros k. rewrite filter_In, seq_In_iff, memb_In. split; [tauto|]. intros Hk. split; [now apply Hb|exact Hk].
      - intros k _. destruct (memb_spec k (s_nz A)) as [|Hk]; [reflexivity|]. unfold rep. rewrite Ea.
        assert (Hne : i <> k) by (intros ->; apply Hk, pos_In; eauto).
        rewrite (proj2 (pos_None k (s_nz A)) Hk). apply Nat.eqb_neq in Hne. now rewrite Hne. }
    rewrite Hsum. destruct (pos j (s_nz A)) as [b|] eqn:Eb.
    + unfold M'. rewrite (scaled_value (length (s_nz A)) _ _ a b HM Ha Hr). unfold rep. now rewrite Ea, Eb.
    + unfold rep. rewrite Ea, Eb. assert (Hne : i <> j) by (intros ->; congruence).
      apply Nat.eqb_neq in Hne. rewrite Hne. destruct (qeqb _ _); ring.
  - assert (Hsum : sumN (s_size A) (rep A i) = s_diag A).
    { rewrite (sumN_ext _ _ (fun k => if k =? i then s_diag A else 0%num)).
      - apply (sumN_delta _ i (fun _ => s_diag A) Hi).
      - intros k _. unfold rep. rewrite Ea, (Nat.eqb_sym k i). reflexivity. }
    rewrite Hsum. destruct (qeqb_spec (s_diag A) 0%num); [contradiction|].
    unfold rep. rewrite Ea. destruct (i =? j); [field; exact Hd|ring].
Qed.
Lemma ssm_normalise_sum A r i : ssm_ok A -> r <> 0%num -> s_diag A <> 0%num -> i < s_size A ->
  sumN (s_size A) (rep A i) <> 0%num -> sumN (s_size A) (rep (ssm_row_normalise A r) i) = r.
Proof.
  intros HA Hr Hd Hi Hs. destruct (ssm_row_normalise_spec A r HA Hr Hd) as [_ Hv].
  set (s := sumN (s_size A) (rep A i)) in *.
  rewrite (sumN_ext _ _ (fun j => (rep A i j * (r / s))%num)).
  - transitivity (s * (r / s))%num; [apply (sumL_scal_r (r / s)%num (rep A i))|]. field. exact Hs.
  - intros j Hj. rewrite (Hv i j Hi Hj). fold s. destruct (qeqb_spec s 0%num); [contradiction|reflexivity].
Qed.

(** * A scipy that satisfies the contract *)
Definition dense_csr (n : nat) (f : nat -> nat -> num) : csr :=
  of_rows (map (fun i => map (fun j => (j, f i j)) (seq 0 n)) (seq 0 n)).
Lemma dense_csr_spec n f : csr_ok n (dense_csr n f) /\
  forall i j, i < n -> j < n -> value (dense_csr n f) i j = f i j.
Proof.
  unfold dense_csr. split.
  - apply csr_ok_of_rows; [now rewrite map_length, seq_length|]. intros r e Hr He.
    apply in_map_iff in Hr. destruct Hr as (i & <- & _). apply in_map_iff in He. destruct He as (j & <- & Hj).
    now apply seq_In_iff in Hj.
  - intros i j Hi Hj. rewrite value_rows by (now rewrite map_length, seq_length).
    rewrite (nth_map_dep _ (seq 0 n) i 0) by (now rewrite seq_length). rewrite seq_nth by exact Hi.
    unfold scattered. rewrite sumL_map. cbn [fst snd]. apply (sumN_delta n j (fun c => f i c) Hj).
Qed.
Definition rows_of (M : csr) : nat := length (c_ptr M) - 1.
Definition dense_scipy : scipy := mkScipy
  (fun M d => dense_csr (rows_of M) (fun i j => (value M i j + if i =? j then d else 0)%num))
  (fun M => dense_csr (rows_of M) (fun i j => value M j i))
  (fun M N => dense_csr (rows_of M) (fun i j => sumN (rows_of M) (fun k => (value M i k * value N k j)%num))).
Lemma dense_scipy_ok : scipy_ok dense_scipy.
Proof.
  intros n M HM. assert (Hr : rows_of M = n) by (unfold rows_of; rewrite (proj1 HM); lia).
  unfold dense_scipy. cbn [add_eye transp matmul]. rewrite Hr. split; [|split].
  - intros d. split; [apply dense_csr_spec|]. intros i j Hi Hj. now rewrite (proj2 (dense_csr_spec n _) i j Hi Hj).
  - split; [apply dense_csr_spec|]. intros i j Hi Hj. now rewrite (proj2 (dense_csr_spec n _) i j Hi Hj).
  - intros N HN. split; [apply dense_csr_spec|]. intros i j Hi Hj. now rewrite (proj2 (dense_csr_spec n _) i j Hi Hj).
Qed.

(** * Decision procedures for the examples *)
Definition csr_okb (n : nat) (M : csr) : bool :=
  (length (c_ptr M) =? S n) && (nth 0 (c_ptr M) 0 =? 0) &&
  forallb (fun i => nth i (c_ptr M) 0 <=? nth (S i) (c_ptr M) 0) (seq 0 n) &&
  (nth n (c_ptr M) 0 =? length (c_data M)) && (length (c_idx M) =? length (c_data M)) &&
  forallb (fun j => j <? n) (c_idx M).
Lemma csr_okb_sound n M : csr_okb n M = true -> csr_ok n M.
Proof.
  unfold csr_okb. rewrite !andb_true_iff, !Nat.eqb_eq, !forallb_forall. intros (((((H1 & H2) & H3) & H4) & H5) & H6).
  split; [exact H1|]. split; [exact H2|]. split; [|split; [exact H4|split; [exact H5|]]].
  - intros i Hi. apply Nat.leb_le, H3, seq_In_iff, Hi.
  - intros j Hj. apply Nat.ltb_lt, H6, Hj.
Qed.
Fixpoint sortedb (l : list nat) : bool :=
  match l with [] => true | a :: r => forallb (fun b => a <? b) r && sortedb r end.
Lemma sortedb_sound l : sortedb l = true -> StronglySorted lt l.
Proof.
  induction l as [|a l IH]; simpl; intros H; constructor; apply andb_true_iff in H; destruct H as [H1 H2]; [auto|].
  apply Forall_forall. intros b Hb. rewrite forallb_forall in H1. apply Nat.ltb_lt, H1, Hb.
Qed.
Definition ssm_okb (A : ssm) : bool :=
  csr_okb (length (s_nz A)) (s_small A) && sortedb (s_nz A) && forallb (fun i => i <? s_size A) (s_nz A).
Lemma ssm_okb_sound A : ssm_okb A = true -> ssm_ok A.
Proof.
  unfold ssm_okb. rewrite !andb_true_iff, forallb_forall. intros ((H1 & H2) & H3).
  split; [now apply csr_okb_sound|]. split; [now apply sortedb_sound|]. intros i Hi. apply Nat.ltb_lt, H3, Hi.
Qed.
Fixpoint nodupb (l : list nat) : bool := match l with [] => true | a :: r => negb (memb a r) && nodupb r end.
Lemma nodupb_sound l : nodupb l = true -> NoDup l.
Proof.
  induction l as [|a l IH]; simpl; intros H; constructor; apply andb_true_iff in H; destruct H as [H1 H2]; [|auto].
  apply memb_false. now apply negb_true_iff.
Qed.
(** rows beyond the last have no entries, so a check of the rows is enough *)
Lemma no_repetition_check n M : length (c_ptr M) = S n -> nth n (c_ptr M) 0 = length (c_data M) ->
  forallb (fun i => nodupb (map fst (row_entries M i))) (seq 0 n) = true -> no_repetition M.
Proof.
  intros Hp Hn H i. destruct (Nat.lt_ge_cases i n) as [Hi|Hi].
  - apply nodupb_sound. rewrite forallb_forall in H. now apply H, seq_In_iff.
  - unfold row_entries, row_range. rewrite (nth_overflow (c_ptr M)) with (n := S i) by lia. simpl. constructor.
Qed.
