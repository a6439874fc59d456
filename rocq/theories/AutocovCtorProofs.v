(** Lemmas about the zero test, the scaling functions and the constructors from a transition
    matrix. *)
From Verif Require Import Base SparseModel SparseSpec SparseProofs SparseOpsProofs SparseConvProofs
  AutocovModel AutocovSpec AutocovProofs AutocovAggProofs.
Local Open Scope bool_scope.

(** ** is_all_zeros *)
Lemma qabs_le x e : (qabs x <= e)%num -> (- e <= x /\ x <= e)%num.
Proof. unfold qabs. destruct (qltb_spec x 0%num) as [H|H]; intros; split; revert H H0; qlra. Qed.
Lemma qabs_le_intro x e : (- e <= x)%num -> (x <= e)%num -> (qabs x <= e)%num.
Proof. unfold qabs. destruct (qltb_spec x 0%num); qlra. Qed.
Lemma qabs_0 x : (0 <= qabs x)%num.
Proof. unfold qabs. destruct (qltb_spec x 0%num) as [H|H]; revert H; qlra. Qed.
Lemma qabs_pos x : (0 <= x)%num -> qabs x = x.
Proof. unfold qabs. destruct (qltb_spec x 0%num) as [H|H]; [|reflexivity]. intros H'. exfalso. revert H H'. qlra. Qed.

Lemma is_all_zeros_spec n PT p sym A : built n PT p sym A ->
  is_all_zeros A = true <->
  (forall i e, i < n -> In e (row_entries PT i) -> allclose (snd e) (p0_at p i (fst e)) = true).
Proof.
  intros HA. destruct (built_inv n PT p sym A HA) as (EPT & Ep & _ & Esz & _). destruct HA as (HM & _).
  unfold is_all_zeros. rewrite Esz, Ep, EPT, forallb_forall. split.
  - intros H i e Hi He. specialize (H i (proj2 (seq_In_iff n i) Hi)). rewrite forallb_forall in H. apply H.
    rewrite (proj2 (sort_indices_spec n PT HM) i Hi). revert He. apply Permutation_in, Permutation_sym, sort_entries_perm.
  - intros H i Hi. apply seq_In_iff in Hi. apply forallb_forall. intros e He. apply H; [exact Hi|].
    rewrite (proj2 (sort_indices_spec n PT HM) i Hi) in He. revert He. apply Permutation_in, sort_entries_perm.
Qed.
Lemma allclose_refl a : allclose a a = true.
Proof.
  unfold allclose. destruct (qleb_spec (qabs (a - a)) (qf 1 100000000 + qf 1 100000 * qabs a)) as [|H]; [reflexivity|].
  exfalso. apply H. replace (a - a)%num with 0%num by ring. change (qabs 0%num) with 0%num.
  pose proof (qabs_0 a) as Ha. revert Ha. generalize (qabs a). unfold qf. qlra.
Qed.
Lemma zeros_detected n PT p sym A : built n PT p sym A -> no_repetition PT ->
  (forall i j, i < n -> j < n -> toarray A i j = 0%num) -> is_all_zeros A = true.
Proof.
  intros HA Hr Hz. apply (is_all_zeros_spec n PT p sym A HA). intros i e Hi He.
  pose proof (proj1 HA) as HM. assert (Hj := row_entries_col n PT i e HM Hi He).
  specialize (Hz i (fst e) Hi Hj). rewrite (built_toarray n PT p sym A i (fst e) HA Hi Hj) in Hz.
  destruct (value_single PT i (fst e) (Hr i)) as [(v & Hv & E)|[Hno _]].
  2:{ exfalso. apply (Hno (snd e)). now destruct e. }
  assert (Ev : v = snd e).
  { specialize (Hr i). clear - Hr Hv He. induction (row_entries PT i) as [|f l IH]; [destruct He|].
    cbn [map] in Hr. inversion Hr; subst. destruct He as [->|He], Hv as [E|Hv]; subst.
    - apply (f_equal snd) in E. now symmetry.
    - exfalso. apply H1. apply (in_map fst) in Hv. exact Hv.
    - exfalso. apply H1. apply (in_map fst) in He. exact He.
    - auto. }
  rewrite E, Ev in Hz. replace (p0_at p i (fst e)) with (snd e); [apply allclose_refl|].
  revert Hz. generalize (snd e) (p0_at p i (fst e)). qlra.
Qed.
(** what is_all_zeros tells about a matrix whose rows sum to zero *)
Lemma zeros_bound n PT p sym A i j : built n PT p sym A -> no_repetition PT ->
  (forall i j, i < n -> j < n -> (0 <= p0_at p i j)%num) ->
  (forall i, i < n -> sumN n (toarray A i) = 0%num) ->
  is_all_zeros A = true -> i < n -> j < n ->
  (toarray A i j <= qf 1 100000000 + qf 1 100000 * p0_at p i j)%num /\
  (qabs (toarray A i j) <= qn n * qf 1 100000000 + qf 1 100000 * sumN n (p0_at p i))%num.
Proof.
  intros HA Hr Hp Hsum Hz Hi Hj. rewrite (is_all_zeros_spec n PT p sym A HA) in Hz.
  set (t := fun j => (qf 1 100000000 + qf 1 100000 * p0_at p i j)%num).
  assert (Hup : forall j, j < n -> (toarray A i j <= t j)%num).
  { intros k Hk. rewrite (built_toarray n PT p sym A i k HA Hi Hk). unfold t. specialize (Hp i k Hi Hk).
    destruct (value_single PT i k (Hr i)) as [(v & Hv & ->)|[_ ->]].
    - specialize (Hz i (k, v) Hi Hv). cbn [fst snd] in Hz. unfold allclose in Hz.
      destruct (qleb_spec (qabs (v - p0_at p i k)) (qf 1 100000000 + qf 1 100000 * qabs (p0_at p i k))) as [H|]; [|discriminate].
      apply qabs_le in H. rewrite (qabs_pos _ Hp) in H. apply H.
    - revert Hp. generalize (p0_at p i k). unfold qf. qlra. }
  assert (Ht0 : forall j, j < n -> (0 <= t j)%num).
  { intros k Hk. unfold t. specialize (Hp i k Hi Hk). revert Hp. generalize (p0_at p i k). unfold qf. qlra. }
  assert (Et : sumN n t = (qn n * qf 1 100000000 + qf 1 100000 * sumN n (p0_at p i))%num).
  { unfold t, sumN. rewrite sumL_add, sumL_const, seq_length, (sumL_scal_l (qf 1 100000)). reflexivity. }
  split; [now apply Hup|]. rewrite <- Et. specialize (Hsum i Hi).
  assert (Hin : In j (seq 0 n)) by now apply seq_In_iff.
  unfold sumN in Hsum |- *. rewrite (sumL_rem _ j _ (seq_NoDup n 0) Hin) in Hsum.
  rewrite (sumL_rem t j _ (seq_NoDup n 0) Hin).
  assert (Hrest : (sumL (toarray A i) (rem j (seq 0 n)) <= sumL t (rem j (seq 0 n)))%num).
  { apply sumL_le. intros k Hk. apply rem_In in Hk. apply Hup. apply seq_In_iff, Hk. }
  assert (Hrest0 : (0 <= sumL t (rem j (seq 0 n)))%num).
  { apply sumL_nonneg. intros k Hk. apply rem_In in Hk. apply Ht0. apply seq_In_iff, Hk. }
  specialize (Hup j Hj). specialize (Ht0 j Hj).
  revert Hsum Hrest Hrest0 Hup Ht0. generalize (toarray A i j) (t j) (sumL (toarray A i) (rem j (seq 0 n))) (sumL t (rem j (seq 0 n))).
  intros x y a b. intros. apply qabs_le_intro; qlra.
Qed.

(** ** A CSR matrix is given by its rows *)
Lemma seq_firstn {A} (l : list A) d : forall b, b <= length l -> map (fun k => nth k l d) (seq 0 b) = firstn b l.
Proof.
  induction l as [|x l IH]; intros [|b] H; simpl in *; try reflexivity; try lia.
  f_equal. rewrite <- seq_shift, map_map. apply IH. lia.
Qed.
Lemma seq_skipn {A} (l : list A) d b : forall a, a + b <= length l ->
  map (fun k => nth k l d) (seq a b) = firstn b (skipn a l).
Proof.
  intros a. revert l. induction a as [|a IH]; intros l H; [now apply seq_firstn|].
  destruct l as [|x l]; simpl in H; [lia|]. rewrite <- seq_shift, map_map. cbn [nth skipn]. apply IH. lia.
Qed.
Lemma firstn_seq {A} (l : list A) d a b : a + b <= length l ->
  firstn (a + b) l = firstn a l ++ map (fun k => nth k l d) (seq a b).
Proof.
  intros H. rewrite (seq_skipn l d b a H). rewrite <- (firstn_skipn a l) at 1.
  rewrite firstn_app, firstn_length, Nat.min_l by lia.
  rewrite (firstn_all2 (n := a + b) (firstn a l)) by (rewrite firstn_length; lia).
  replace (a + b - a) with b by lia. reflexivity.
Qed.
Lemma firstn_seq_le m k : k <= m -> firstn k (seq 0 m) = seq 0 k.
Proof.
  intros H. replace m with (k + (m - k)) by lia. rewrite seq_app, firstn_app, seq_length.
  replace (k - k) with 0 by lia. cbn [firstn]. rewrite app_nil_r. apply firstn_all2. now rewrite seq_length.
Qed.
Lemma rows_prefix n M m : csr_ok n M -> m <= n ->
  firstn (nth m (c_ptr M) 0) (c_data M) = map snd (concat (map (row_entries M) (seq 0 m))) /\
  firstn (nth m (c_ptr M) 0) (c_idx M) = map fst (concat (map (row_entries M) (seq 0 m))).
Proof.
  intros HM. induction m as [|m IH]; intros Hm.
  - destruct HM as (_ & H0 & _). rewrite H0. split; reflexivity.
  - destruct (row_bounds n M m HM ltac:(lia)) as [Hb1 Hb2]. destruct (IH ltac:(lia)) as [I1 I2].
    assert (Hl : length (c_idx M) = length (c_data M)) by apply HM.
    set (a := nth m (c_ptr M) 0) in *. set (b := nth (S m) (c_ptr M) 0) in *.
    replace b with (a + (b - a)) by lia.
    rewrite (firstn_seq (c_data M) 0%num), (firstn_seq (c_idx M) 0) by lia. rewrite I1, I2.
    rewrite seq_S, map_app, concat_app, !map_app. cbn [map concat]. rewrite app_nil_r.
    cbn [plus].
    assert (E1 : map snd (row_entries M m) = map (fun k => nth k (c_data M) 0%num) (seq a (b - a)))
      by (unfold row_entries, row_range; fold a b; now rewrite map_map).
    assert (E2 : map fst (row_entries M m) = map (fun k => nth k (c_idx M) 0) (seq a (b - a)))
      by (unfold row_entries, row_range; fold a b; now rewrite map_map).
    rewrite E1, E2. split; reflexivity.
Qed.
Lemma ptrs_map_length rows rows' : map (@length _) rows = map (@length _) rows' -> forall s, ptrs s rows = ptrs s rows'.
Proof.
  revert rows'. induction rows as [|r t IH]; intros [|r' t'] H s; try discriminate; [reflexivity|].
  cbn [map] in H. injection H as H1 H2. cbn [ptrs]. rewrite H1. f_equal. now apply IH.
Qed.
Lemma csr_is_rows n M : csr_ok n M -> M = of_rows (map (row_entries M) (seq 0 n)).
Proof.
  intros HM. pose proof (rows_prefix n M n HM (le_n n)) as [H1 H2].
  assert (Hl := proj1 HM). assert (Hn : nth n (c_ptr M) 0 = length (c_data M)) by apply HM.
  assert (Hx : length (c_idx M) = length (c_data M)) by apply HM.
  rewrite Hn, firstn_all in H1. rewrite Hn, <- Hx, firstn_all in H2.
  unfold of_rows. rewrite <- H1, <- H2. destruct M as [d x p]. cbn [c_data c_idx c_ptr] in *. f_equal.
  apply (nth_ext _ _ 0 0); [rewrite ptrs_length, map_length, seq_length; exact Hl|].
  intros k Hk. rewrite Hl in Hk. rewrite ptrs_nth by (rewrite map_length, seq_length; lia).
  pose proof (rows_prefix n (mkCsr d x p) k HM ltac:(lia)) as [H3 _]. cbn [c_data c_ptr] in H3.
  rewrite firstn_map, firstn_seq_le by lia.
  apply (f_equal (@length num)) in H3. rewrite map_length in H3. rewrite <- H3, firstn_length.
  assert (nth k p 0 <= length d); [|lia].
  destruct (Nat.eq_dec k n) as [->|]; [lia|]. destruct (row_bounds n (mkCsr d x p) k HM ltac:(lia)). cbn in *. lia.
Qed.

(** ** Scaling *)
Lemma scale_rows_spec n M d : csr_ok n M -> length d = n ->
  exists M', scale_rows M d = Some M' /\ csr_ok n M' /\
    (forall i, i < n -> row_entries M' i = map (fun e => (fst e, (nth i d 0 * snd e)%num)) (row_entries M i)) /\
    (forall i j, i < n -> value M' i j = (nth i d 0 * value M i j)%num).
Proof.
  intros HM Hd. unfold scale_rows. rewrite (csr_size_ok n M HM), Hd, Nat.eqb_refl.
  set (f := fun i => map (fun e => (fst e, (nth i d 0 * snd e)%num)) (row_entries M i)).
  assert (E : mkCsr (concat (map (fun i => map (fun e => (nth i d 0 * snd e)%num) (row_entries M i)) (seq 0 n)))
                (c_idx M) (c_ptr M) = of_rows (map f (seq 0 n))).
  { assert (EM := csr_is_rows n M HM). unfold of_rows in EM |- *.
    assert (EI := f_equal c_idx EM). assert (EP := f_equal c_ptr EM). cbn [c_idx c_ptr] in EI, EP. clear EM.
    rewrite EI, EP. f_equal.
    - rewrite concat_map, map_map. f_equal. apply map_ext. intros i. unfold f. rewrite map_map. reflexivity.
    - rewrite !concat_map, !map_map. f_equal. apply map_ext. intros i. unfold f. rewrite map_map. reflexivity.
    - apply ptrs_map_length. rewrite !map_map. apply map_ext. intros i. unfold f. now rewrite map_length. }
  rewrite E.
  destruct (csr_of_fun n f) as [H1 H2].
  { intros i e Hi He. unfold f in He. apply in_map_iff in He. destruct He as (e' & <- & He).
    now apply (row_entries_col n M i e' HM). }
  eexists. split; [reflexivity|]. split; [exact H1|]. split; [exact H2|].
  intros i j Hi. unfold value. rewrite H2 by exact Hi. unfold f. rewrite sumL_map. cbn [fst snd].
  rewrite <- sumL_scal_l. apply sumL_ext. intros e _. destruct (fst e =? j); ring.
Qed.
Lemma scale_cols_spec n M d : csr_ok n M -> length d = n ->
  exists M', scale_cols M d = Some M' /\ csr_ok n M' /\
    (forall i, i < n -> row_entries M' i = map (fun e => (fst e, (snd e * nth (fst e) d 0)%num)) (row_entries M i)) /\
    (forall i j, i < n -> value M' i j = (value M i j * nth j d 0)%num).
Proof.
  intros HM Hd. unfold scale_cols. rewrite (csr_size_ok n M HM), Hd, Nat.eqb_refl.
  eexists. split; [reflexivity|].
  assert (H2 : forall i, i < n -> row_entries (mkCsr (map (fun k => (nth k (c_data M) 0 * nth (nth k (c_idx M) 0%nat) d 0)%num)
      (seq 0 (length (c_data M)))) (c_idx M) (c_ptr M)) i
      = map (fun e => (fst e, (snd e * nth (fst e) d 0)%num)) (row_entries M i)).
  { intros i Hi. unfold row_entries. cbn [c_data c_idx c_ptr]. rewrite map_map. apply map_ext_in. intros k Hk.
    apply in_seq in Hk. destruct (row_bounds n M i HM Hi). cbn [fst snd]. f_equal.
    rewrite (nth_map_dep _ _ k 0) by (rewrite seq_length; lia). now rewrite seq_nth by lia. }
  split; [apply csr_ok_data; [exact HM|now rewrite map_length, seq_length]|]. split; [exact H2|].
  intros i j Hi. unfold value. rewrite H2 by exact Hi. rewrite sumL_map. cbn [fst snd].
  rewrite <- sumL_scal_r. apply sumL_ext. intros e _. destruct (Nat.eqb_spec (fst e) j) as [->|]; ring.
Qed.

(** ** from_T *)
(** the vectors used: given ones, or the defaults *)
Definition used_p1 (n : nat) (p1 : option (list num)) : list num :=
  match p1 with Some v => v | None => uniform n end.
Definition used_p2 (n : nat) (T : csr) (q1 : list num) (p2 : option (list num)) : list num :=
  match p2 with Some v => v | None => vec_csr n q1 T end.
Definition opt_length (n : nat) (p : option (list num)) : Prop :=
  match p with Some v => length v = n | None => True end.
Lemma given_ok n p d : opt_length n p -> given n p d = Some (match p with Some v => v | None => d end).
Proof. unfold given. destruct p as [v|]; simpl; [intros ->; now rewrite Nat.eqb_refl|reflexivity]. Qed.
Lemma used_p1_length n p1 : opt_length n p1 -> length (used_p1 n p1) = n.
Proof. destruct p1; simpl; [auto|]. intros _. apply repeat_length. Qed.
Lemma used_p2_length n T q1 p2 : opt_length n p2 -> length (used_p2 n T q1 p2) = n.
Proof. destruct p2; simpl; [auto|]. intros _. unfold vec_csr. now rewrite map_length, seq_length. Qed.
Lemma vec_csr_nth n v T j : j < n -> nth j (vec_csr n v T) 0%num = sumN n (fun i => (nth i v 0 * value T i j)%num).
Proof. intros Hj. unfold vec_csr. rewrite (nth_map_dep _ _ j 0) by (now rewrite seq_length). now rewrite seq_nth. Qed.

Lemma from_T_spec n T p1 p2 : csr_ok n T -> opt_length n p1 -> opt_length n p2 ->
  let q1 := used_p1 n p1 in let q2 := used_p2 n T q1 p2 in
  exists PT A, from_T T p1 p2 = Some A /\ built n PT (PVec q1 q2) false A /\
    (forall i, i < n -> row_entries PT i = map (fun e => (fst e, (nth i q1 0 * snd e)%num)) (row_entries T i)) /\
    (forall i j, i < n -> j < n -> value PT i j = (nth i q1 0 * value T i j)%num) /\
    (forall i j, i < n -> j < n -> toarray A i j = (nth i q1 0 * value T i j - nth i q1 0 * nth j q2 0)%num).
Proof.
  intros HT H1 H2 q1 q2. unfold from_T. rewrite (csr_size_ok n T HT).
  rewrite (given_ok n p1 _ H1). fold (used_p1 n p1). fold q1.
  rewrite (given_ok n p2 _ H2). fold (used_p2 n T q1 p2). fold q2.
  assert (L1 : length q1 = n) by now apply used_p1_length.
  assert (L2 : length q2 = n) by now apply used_p2_length.
  destruct (scale_rows_spec n T q1 HT L1) as (PT & E & HPT & Hr & Hv). rewrite E.
  destruct (built_init n PT (PVec q1 q2) false HPT (conj L1 L2)) as [A HA].
  assert (HB : built n PT (PVec q1 q2) false A) by (split; [exact HPT|split; [discriminate|exact HA]]).
  exists PT, A. split; [exact HA|]. split; [exact HB|]. split; [exact Hr|].
  split; [intros; now apply Hv|]. intros i j Hi Hj. rewrite (built_toarray _ _ _ _ _ _ _ HB) by assumption.
  rewrite Hv by exact Hi. reflexivity.
Qed.

(** ** from_T_forward *)
Definition inv1 (x : num) : num := if qeqb x 0%num then 1%num else (1 / x)%num.
Lemma inverse_or_one_nth v n k : length v = n -> k < n -> nth k (inverse_or_one v) 0%num = inv1 (nth k v 0%num).
Proof. intros <- Hk. unfold inverse_or_one. now rewrite (nth_map_dep _ v k 0%num). Qed.
Lemma from_T_forward_spec sp n T p1 p2 : scipy_ok sp -> 0 < n -> csr_ok n T -> opt_length n p1 -> opt_length n p2 ->
  let q1 := used_p1 n p1 in let q2 := used_p2 n T q1 p2 in
  exists PT p A, from_T_forward sp T p1 p2 = Some A /\ built n PT p true A /\
    (forall i j, i < n -> j < n -> value PT i j =
       sumN n (fun k => (nth i q1 0 * value T i k * inv1 (nth k q2 0) * value T j k * nth j q1 0)%num)) /\
    (forall i j, i < n -> j < n -> p0_at p i j = (nth i q1 0 * nth j q1 0)%num).
Proof.
  intros Hsp Hn HT H1 H2 q1 q2. unfold from_T_forward. rewrite (csr_size_ok n T HT).
  rewrite (given_ok n p1 _ H1). fold (used_p1 n p1). fold q1.
  rewrite (given_ok n p2 _ H2). fold (used_p2 n T q1 p2). fold q2.
  assert (L1 : length q1 = n) by now apply used_p1_length.
  assert (L2 : length q2 = n) by now apply used_p2_length.
  destruct (scale_cols_spec n T (inverse_or_one q2) HT) as (M1 & E1 & HM1 & _ & V1).
  { unfold inverse_or_one. now rewrite map_length. }
  rewrite E1. destruct (Hsp n T HT) as (_ & [HTt Vt] & _). destruct (Hsp n M1 HM1) as (_ & _ & Hmul).
  destruct (Hmul (transp sp T) HTt) as [HMM VM]. 
  destruct (scale_rows_spec n _ q1 HMM L1) as (M2 & E2 & HM2 & _ & V2). rewrite E2.
  destruct (scale_cols_spec n M2 q1 HM2 L1) as (M3 & E3 & HM3 & _ & V3). rewrite E3.
  assert (V : forall i j, i < n -> j < n -> value M3 i j =
       sumN n (fun k => (nth i q1 0 * value T i k * inv1 (nth k q2 0) * value T j k * nth j q1 0)%num)).
  { intros i j Hi Hj. rewrite V3, V2, VM by assumption.
    transitivity (nth i q1 0 * sumN n (fun k => (value M1 i k * value (transp sp T) k j) * nth j q1 0))%num.
    - unfold sumN. rewrite sumL_scal_r. ring.
    - unfold sumN. rewrite <- sumL_scal_l. apply sumL_ext. intros k Hk. apply seq_In_iff in Hk.
      rewrite V1, Vt by assumption. rewrite (inverse_or_one_nth q2 n k L2 Hk). ring. }
  set (p := match p1 with None => PScal (nth 0 q1 0%num) (nth 0 q1 0%num) | Some _ => PVec q1 q1 end).
  assert (Hp0 : forall i j, i < n -> j < n -> p0_at p i j = (nth i q1 0 * nth j q1 0)%num).
  { intros i j Hi Hj. unfold p. destruct p1 as [v|]; [reflexivity|]. cbn [p0_at]. unfold q1, used_p1.
    now rewrite !uniform_nth. }
  destruct (built_init n M3 p true HM3) as [A HA].
  { unfold p. destruct p1; [split; exact L1|exact I]. }
  exists M3, p, A. split; [exact HA|]. split; [|split; [exact V|exact Hp0]].
  split; [exact HM3|]. split; [|exact HA]. intros _ i j Hi Hj. rewrite !V by assumption.
  apply sumN_ext. intros k Hk. ring.
Qed.

(** forward autocovariance as a function: the default p2 = p1 @ T *)
Section Forward.
Variables (n : nat) (T : nat -> nat -> num) (p1 : nat -> num).
Hypothesis T0 : forall i k, i < n -> k < n -> (0 <= T i k)%num.
Hypothesis T1 : forall i, i < n -> sumN n (T i) = 1%num.
Hypothesis P0 : forall i, i < n -> (0 <= p1 i)%num.
Hypothesis P1 : sumN n p1 = 1%num.
(** default p2 = p1 @ T *)
Definition fwd_p2 (k : nat) : num := sumN n (fun i => (p1 i * T i k)%num).
Local Notation p2 := fwd_p2.
Definition forward (i j : nat) : num :=
  (sumN n (fun k => (p1 i * T i k * inv1 (fwd_p2 k) * T j k * p1 j)%num) - p1 i * p1 j)%num.

Lemma p2_zero k i : k < n -> i < n -> p2 k = 0%num -> (p1 i * T i k)%num = 0%num.
Proof.
  intros Hk Hi H. apply (sumL_nonneg_zero (fun i => (p1 i * T i k)%num) (seq 0 n)).
  - intros a Ha. apply seq_In_iff in Ha. apply qmult_nonneg; auto.
  - exact H.
  - now apply seq_In_iff.
Qed.
Lemma p2_sum : sumN n p2 = 1%num.
Proof.
  unfold fwd_p2, sumN. rewrite sumL_swap. rewrite (sumL_ext _ p1); [exact P1|].
  intros i Hi. apply seq_In_iff in Hi. rewrite (sumL_scal_l (p1 i) (T i)).
  specialize (T1 i Hi). unfold sumN in T1. rewrite T1. ring.
Qed.
Lemma p2_nonneg k : k < n -> (0 <= p2 k)%num.
Proof. intros Hk. apply sumN_nonneg. intros i Hi. apply qmult_nonneg; auto. Qed.
(** inv1 p2 times p2 times a vector vanishing with p2 *)
Lemma inv1_mul x a : (x = 0%num -> a = 0%num) -> (inv1 x * x * a)%num = a.
Proof.
  unfold inv1. destruct (qeqb_spec x 0%num) as [->|Hx]; intros H.
  - rewrite H by reflexivity. ring.
  - field. exact Hx.
Qed.
Lemma inv1_nonneg x : (0 <= x)%num -> (0 <= inv1 x)%num.
Proof.
  unfold inv1. destruct (qeqb_spec x 0%num) as [->|Hx]; intros H; [qcompute|].
  apply qdiv_nonneg; [qcompute|]. apply qle_lt_or_eq in H. destruct H as [H|H]; [exact H|]. now symmetry in H.
Qed.
Lemma forward_row_sum i : i < n -> sumN n (forward i) = 0%num.
Proof.
  intros Hi. unfold forward, sumN. rewrite sumL_sub, (sumL_scal_l (p1 i) p1), sumL_swap.
  transitivity (sumL (fun k => (p1 i * T i k)%num) (seq 0 n) - p1 i * sumL p1 (seq 0 n))%num.
  - f_equal. apply sumL_ext. intros k Hk. apply seq_In_iff in Hk.
    transitivity (p1 i * T i k * inv1 (p2 k) * p2 k)%num.
    + rewrite (sumL_ext _ (fun a => (p1 i * T i k * inv1 (p2 k)) * (p1 a * T a k))%num) by (intros; ring).
      rewrite (sumL_scal_l (p1 i * T i k * inv1 (p2 k))%num). reflexivity.
    + transitivity (inv1 (p2 k) * p2 k * (p1 i * T i k))%num; [ring|]. apply inv1_mul. now apply p2_zero.
  - rewrite (sumL_scal_l (p1 i) (T i)). specialize (T1 i Hi). unfold sumN in T1, P1. rewrite T1, P1. ring.
Qed.
Lemma forward_sym i j : forward i j = forward j i.
Proof. unfold forward. f_equal; [|ring]. apply sumN_ext. intros k _. ring. Qed.
(** the quadratic form is a variance *)
Lemma forward_psd (x : nat -> num) :
  (0 <= sumN n (fun i => sumN n (fun j => (x i * forward i j * x j)%num)))%num.
Proof.
  set (a := fun k => sumN n (fun i => (x i * (p1 i * T i k))%num)).
  set (m := sumN n (fun i => (x i * p1 i)%num)).
  assert (Ea : sumN n a = m).
  { unfold a, m, sumN. rewrite sumL_swap. apply sumL_ext. intros i Hi. apply seq_In_iff in Hi.
    rewrite (sumL_ext _ (fun k => (x i * p1 i) * T i k)%num) by (intros; ring).
    rewrite (sumL_scal_l (x i * p1 i)%num). specialize (T1 i Hi). unfold sumN in T1. rewrite T1. ring. }
  assert (Hak : forall k, k < n -> p2 k = 0%num -> a k = 0%num).
  { intros k Hk H0. apply sumN_zero. intros i Hi. rewrite (p2_zero k i Hk Hi H0). ring. }
  assert (E : sumN n (fun i => sumN n (fun j => (x i * forward i j * x j)%num)) =
              sumN n (fun k => (inv1 (p2 k) * ((a k - m * p2 k) * (a k - m * p2 k)))%num)).
  { transitivity (sumN n (fun k => (inv1 (p2 k) * (a k * a k))%num) - m * m)%num.
    - transitivity (sumN n (fun i => sumN n (fun j => sumN n (fun k =>
          (inv1 (p2 k) * ((x i * (p1 i * T i k)) * (x j * (p1 j * T j k))))%num)))
        - sumN n (fun i => sumN n (fun j => ((x i * p1 i) * (x j * p1 j))%num)))%num.
      + unfold sumN. rewrite <- sumL_sub. apply sumL_ext. intros i _. rewrite <- sumL_sub. apply sumL_ext. intros j _.
        unfold forward, sumN. rewrite (sumL_ext (fun k => (inv1 (p2 k) * (x i * (p1 i * T i k) * (x j * (p1 j * T j k))))%num)
          (fun k => ((p1 i * T i k * inv1 (p2 k) * T j k * p1 j) * (x i * x j))%num))
          by (intros; ring).
        rewrite (sumL_scal_r (x i * x j)%num). ring.
      + f_equal.
        * unfold sumN.
          rewrite (sumL_ext _ (fun i => sumL (fun k => sumL (fun j => (inv1 (p2 k) * ((x i * (p1 i * T i k)) * (x j * (p1 j * T j k))))%num) (seq 0 n)) (seq 0 n)))
            by (intros; apply sumL_swap).
          rewrite sumL_swap. apply sumL_ext. intros k _.
          rewrite (sumL_ext _ (fun i => sumL (fun j => (((x i * (p1 i * T i k)) * (x j * (p1 j * T j k)) * inv1 (p2 k)))%num) (seq 0 n)))
            by (intros; apply sumL_ext; intros; ring).
          rewrite (sumL_ext _ (fun i => (sumL (fun j => ((x i * (p1 i * T i k)) * (x j * (p1 j * T j k)))%num) (seq 0 n) * inv1 (p2 k))%num))
            by (intros; apply (sumL_scal_r (inv1 (p2 k)))).
          rewrite (sumL_scal_r (inv1 (p2 k))), <- (sumL_prod (fun i => (x i * (p1 i * T i k))%num) (fun j => (x j * (p1 j * T j k))%num)).
          unfold a, sumN. ring.
        * unfold m, sumN. f_equal. symmetry. apply (sumL_prod (fun i => (x i * p1 i)%num) (fun j => (x j * p1 j)%num)).
    - transitivity (sumN n (fun k => (inv1 (p2 k) * (a k * a k))%num) - (m * sumN n a + m * sumN n a) + m * m * sumN n p2)%num.
      + rewrite Ea, p2_sum. ring.
      + unfold sumN. rewrite <- !(sumL_scal_l m a), <- (sumL_scal_l (m * m)%num p2), <- sumL_add, <- sumL_sub, <- sumL_add.
        apply sumL_ext. intros k Hk. apply seq_In_iff in Hk.
        transitivity (inv1 (p2 k) * (a k * a k) - (m * (inv1 (p2 k) * p2 k * a k) + m * (inv1 (p2 k) * p2 k * a k))
                      + m * m * (inv1 (p2 k) * p2 k * p2 k))%num; [|ring].
        now rewrite (inv1_mul (p2 k) (a k) (Hak k Hk)), (inv1_mul (p2 k) (p2 k) (fun H => H)). }
  rewrite E. apply sumN_nonneg. intros k Hk. apply qmult_nonneg; [|apply qsq_nonneg].
  apply inv1_nonneg. now apply p2_nonneg.
Qed.
End Forward.
