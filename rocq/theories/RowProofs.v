(** Proofs about rows and columns of sparse matrices, assignments and subsets of nodes. *)
From Verif Require Import Base LouvainModel SparseModel SparseSpec SparseProofs SparseOpsProofs SparseConvProofs
  TransModel TransSpec MatProofs TransProofs ExpmProofs SmallModel SmallSpec SmallProofs.
Local Open Scope bool_scope.

(** ** csc_row_normalize *)
Lemma csc_normalise_same n M : csr_ok n M -> csc_row_normalise M = csr_row_normalise M n (fun _ => 1%num).
Proof.
  intros HM. unfold csc_row_normalise, csr_row_normalise. rewrite (proj1 HM). replace (S n - 1) with n by lia. f_equal. generalize (c_data M). generalize (seq 0 n).
  induction l as [|i l IH]; intros data; [reflexivity|]. cbn [fold_left]. rewrite IH. f_equal. unfold csc_normalise_row, normalise_row.
  destruct (qeqb_spec (sumL (fun j => nth j data 0%num) (row_range (c_ptr M) i)) 0%num) as [|Hs]; [reflexivity|]. destruct (qeqb_spec 1%num 0%num) as [E|_]; [discriminate|].
  unfold set_range. set (s := sumL _ _) in *. clearbody s. generalize (row_range (c_ptr M) i). intros r. revert data. induction r as [|j r IHr]; intros data; [reflexivity|]. cbn [fold_left]. rewrite IHr. f_equal. f_equal. field. split; [|exact Hs]. discriminate.
Qed.

(** ** set_to_ones *)
Lemma set_to_ones_rows n M tol i : csr_ok n M -> i < n ->
  row_entries (set_to_ones M tol) i = map (fun e => (fst e, if qleb (qabs (snd e - 1)%num) tol then 1%num else snd e)) (row_entries M i).
Proof. intros HM Hi. unfold set_to_ones. exact (row_entries_map_data n M (fun v => if qleb (qabs (v - 1)%num) tol then 1%num else v) i HM Hi). Qed.
Lemma value_map_data n M f i j : csr_ok n M -> no_repetition M -> i < n -> f 0%num = 0%num ->
  value (mkCsr (map f (c_data M)) (c_idx M) (c_ptr M)) i j = f (value M i j).
Proof.
  intros HM HR Hi H0. unfold value. rewrite (row_entries_map_data n M f i HM Hi), sumL_map. cbn [fst snd]. pose proof (HR i) as Hn. revert Hn.
  induction (row_entries M i) as [|e l IH]; intros Hn; [rewrite !sumL_nil; now symmetry|]. cbn [map] in Hn. inversion Hn as [|? ? Hx Hl]; subst. rewrite !sumL_cons.
  destruct (Nat.eqb_spec (fst e) j) as [E|E].
  - rewrite (sumL_zero _ l), (sumL_zero (fun e0 => if fst e0 =? j then snd e0 else 0%num) l); [f_equal; now rewrite !Qcplus_0_r|..];
      intros e' He'; (destruct (Nat.eqb_spec (fst e') j) as [E'|]; [|reflexivity]); exfalso; apply Hx; rewrite E, <- E'; now apply in_map.
  - rewrite (IH Hl). now rewrite !Qcplus_0_l.
Qed.

(** ** numpy_rebuild_nnz_rowcol *)
Lemma memb_In x l : memb x l = true <-> In x l.
Proof. unfold memb. rewrite existsb_exists. split; [intros (y & Hy & E); apply Nat.eqb_eq in E; now subst|intros H; exists x; split; [exact H|apply Nat.eqb_refl]]. Qed.
Definition complement (n : nat) (zero : list nat) : list nat := filter (fun i => negb (memb i zero)) (seq 0 n).
Lemma complement_In n zero i : In i (complement n zero) <-> i < n /\ ~ In i zero.
Proof. unfold complement. rewrite filter_In, in_seq, negb_true_iff. rewrite <- not_true_iff_false, memb_In. intuition lia. Qed.
Lemma complement_length n zero : NoDup zero -> (forall i, In i zero -> i < n) -> length (complement n zero) + length zero = n.
Proof.
  intros Hn Hb. rewrite <- app_length. transitivity (length (seq 0 n)); [|apply seq_length]. apply Permutation_length. apply NoDup_Permutation; [|apply seq_NoDup|].
  - clear Hb. assert (Hc : NoDup (complement n zero)) by apply filter_NoDup, seq_NoDup.
    assert (Hd : forall i, In i (complement n zero) -> ~ In i zero) by (intros i Hi; now apply complement_In in Hi). revert Hd Hc. generalize (complement n zero). induction l as [|x l IH]; intros Hd Hc; [exact Hn|]. inversion Hc as [|? ? Hx Hl]; subst. cbn. constructor; [|apply IH; [intros; apply Hd; now right|exact Hl]].
    intros H. apply in_app_iff in H. destruct H as [H|H]; [now apply Hx|]. now apply (Hd x (or_introl eq_refl)).
  - intros i. rewrite in_app_iff, complement_In, in_seq. split; [intros [[H _]|H]; [lia|specialize (Hb i H); lia]|]. intros H. destruct (in_dec Nat.eq_dec i zero); [now right|left]. split; [lia|assumption].
Qed.
Lemma numpy_rows_same M n zero left : forall row small, row + left <= n ->
  numpy_rows M zero (complement n zero) row left small = rebuild_rows M (complement n zero) 1%num row left small.
Proof.
  induction left as [|left IH]; intros row small Hle; [reflexivity|]. cbn [numpy_rows rebuild_rows].
  assert (E : memb row (complement n zero) = negb (memb row zero)).
  { apply eq_true_iff_eq. rewrite negb_true_iff, memb_In, complement_In, <- not_true_iff_false, memb_In. intuition lia. }
  rewrite E. destruct (memb row zero); cbn [negb]; rewrite IH by lia; reflexivity.
Qed.
Lemma numpy_rebuild_spec m M zero : csr_ok m M -> NoDup zero -> (forall i, In i zero -> i < m + length zero) ->
  let n := m + length zero in
  exists F, numpy_rebuild M zero = Some (F, n) /\ rebuild M (complement n zero) n 1%num = Some F /\ csr_ok n F /\ placed n M (complement n zero) 1%num (value F).
Proof.
  intros HM Hn Hb n. pose proof (complement_length n zero Hn Hb) as HC. assert (HL : length (complement n zero) = m) by lia.
  assert (Hs : StronglySorted lt (complement n zero)) by apply filter_sorted, seq_sorted. assert (Hbc : forall i, In i (complement n zero) -> i < n) by (intros i Hi; now apply complement_In in Hi).
  set (A := mkS n (complement n zero) M 1%num). assert (HA : ssm_ok A) by (split; [cbn [s_nz s_small A]; now rewrite HL|split; assumption]).
  destruct (to_full_spec A HA) as (F & EF & HF & HV). unfold to_full_mat in EF. cbn [s_small s_nz s_size s_diag A] in EF, HF, HV. exists F.
  split; [|split; [exact EF|split; [exact HF|]]].
  - unfold numpy_rebuild. rewrite (proj1 HM). replace (S m - 1) with m by lia. fold n. fold (complement n zero). rewrite HL, Nat.leb_refl.
    unfold rebuild in EF. rewrite numpy_rows_same by lia. destruct (total _ <=? _) in EF; [|discriminate]. now injection EF as <-.
  - split.
    + intros a b Ha Hb'. rewrite HV by (apply Hbc, nth_In; assumption). unfold rep. cbn [s_nz s_small A]. rewrite !pos_of_nth by (assumption || now apply sorted_NoDup). reflexivity.
    + intros i j Hi Hj Hnot. rewrite HV by assumption. unfold rep. cbn [s_nz s_small s_diag A]. destruct (pos i (complement n zero)) as [a|] eqn:Ea; [|reflexivity]. destruct (pos j (complement n zero)) as [b|] eqn:Eb; [|reflexivity].
      exfalso. apply Hnot. split; apply pos_In; eauto.
Qed.

(** ** _stack_sparse_cols *)
Lemma cumsum_ptrs s rows : cumsum s (map (@length _) rows) = ptrs s rows.
Proof. revert s. induction rows as [|r rows IH]; intros s; [reflexivity|]. cbn. now rewrite IH. Qed.
Lemma stack_cols_rows N cols : length cols = N -> stack_cols N cols = Some (of_rows cols).
Proof. intros H. unfold stack_cols, of_rows. rewrite H, Nat.leb_refl, Nat.sub_diag. cbn [repeat]. rewrite app_nil_r, cumsum_ptrs, !concat_map. reflexivity. Qed.

(** ** _cython_sparse_stoch_subst.py *)
Lemma other_rows n M row_sum : csr_ok n M -> row_sum <> 0%num ->
  exists M', other_row_normalise M n row_sum = Some M' /\ csr_ok n M' /\ forall i, i < n ->
    row_entries M' i = map (fun e => (fst e, if qeqb (stored_sum M i) 0%num then snd e else (stored_sum M i / row_sum)%num)) (row_entries M i).
Proof.
  intros HM Hr. set (step := fun data i => if qeqb (sumL (fun j => nth j data 0%num) (row_range (c_ptr M) i)) 0%num then data else set_range data (fun _ => (sumL (fun j => nth j data 0%num) (row_range (c_ptr M) i) / row_sum)%num) (row_range (c_ptr M) i)).
  assert (E : forall l data, fold_left (other_normalise_row (c_ptr M) row_sum) l (Some data) = Some (fold_left step l data)).
  { induction l as [|i l IH]; intros data; [reflexivity|]. cbn [fold_left]. rewrite <- IH. f_equal. unfold other_normalise_row, step. destruct (qeqb_spec row_sum 0%num); [contradiction|]. now destruct (qeqb _ 0%num). }
  unfold other_row_normalise. rewrite E. eexists. split; [reflexivity|]. apply (norm_rows n M step (fun i v => if qeqb (stored_sum M i) 0%num then v else (stored_sum M i / row_sum)%num) HM).
  intros data i Hi Hl Hk. unfold step. assert (Hs : sumL (fun j => nth j data 0%num) (row_range (c_ptr M) i) = stored_sum M i) by (rewrite stored_sum_range; apply sumL_ext; exact Hk). rewrite Hs.
  assert (Hb : forall j, In j (row_range (c_ptr M) i) -> j < length data) by (intros j Hj; apply row_range_In in Hj; pose proof (row_bounds n M i HM Hi); lia).
  destruct (qeqb (stored_sum M i) 0%num).
  - split; [reflexivity|]. intros k. now destruct (memb k _).
  - split; [apply set_range_length|]. intros k. rewrite set_range_nth; [reflexivity|apply seq_NoDup|exact Hb].
Qed.

(** ** _find_optimal_flow *)
Lemma find_two {A} (f : A -> bool) l l' : find f (l ++ l') = match find f l with Some x => Some x | None => find f l' end.
Proof. induction l as [|x l IH]; [reflexivity|]. cbn. now destruct (f x). Qed.
Lemma dict_get (l : list (nat * nat)) d k : aget Nat.eqb (fold_left (fun d st => aset Nat.eqb d (fst st) (snd st)) l d) k =
  match find (fun st => fst st =? k) (rev l) with Some st => Some (snd st) | None => aget Nat.eqb d k end.
Proof.
  revert d. induction l as [|[a b] l IH]; intros d; [reflexivity|]. cbn [fold_left rev fst snd]. rewrite IH, find_two. destruct (find _ (rev l)) as [st|]; [reflexivity|]. cbn [find fst].
  clear. destruct (Nat.eqb_spec a k) as [->|Hne].
  - induction d as [|[x y] d IH]; cbn [aset aget snd]; [now rewrite Nat.eqb_refl|]. destruct (Nat.eqb_spec k x) as [->|]; cbn [aget]; [now rewrite Nat.eqb_refl|]. destruct (Nat.eqb_spec k x); [contradiction|exact IH].
  - induction d as [|[x y] d IH]; cbn [aset aget]; [destruct (Nat.eqb_spec k a); [congruence|reflexivity]|]. destruct (Nat.eqb_spec a x) as [->|]; cbn [aget]; [destruct (Nat.eqb_spec k x); [congruence|reflexivity]|]. destruct (k =? x); [reflexivity|exact IH].
Qed.
Lemma dict_pairs (l : list (nat * nat)) k v : NoDup (map fst l) -> aget Nat.eqb (fold_left (fun d st => aset Nat.eqb d (fst st) (snd st)) l []) k = Some v <-> In (k, v) l.
Proof.
  intros Hn. rewrite dict_get. cbn [aget]. split.
  - destruct (find _ (rev l)) as [[a b]|] eqn:E; [|discriminate]. cbn [snd]. intros [= ->]. apply find_some in E. destruct E as [H1 H2]. cbn in H2. apply Nat.eqb_eq in H2. subst a. now apply in_rev.
  - intros Hin. destruct (find (fun st => fst st =? k) (rev l)) as [[a b]|] eqn:E.
    + apply find_some in E. destruct E as [H1 H2]. cbn in H2. apply Nat.eqb_eq in H2. subst a. apply in_rev in H1. cbn. f_equal. apply in_split in Hin. destruct Hin as (l1 & l2 & ->). rewrite map_app in Hn. cbn [map fst] in Hn. apply NoDup_remove_2 in Hn.
      apply in_app_iff in H1. destruct H1 as [H1|[H1|H1]]; [|congruence|]; exfalso; apply Hn, in_app_iff; [left|right]; apply in_map_iff; now exists (k, b).
    + exfalso. apply in_rev in Hin. apply (find_none _ _ E) in Hin. cbv beta in Hin. cbn [fst] in Hin. now rewrite Nat.eqb_refl in Hin.
Qed.
Lemma flow_of_cost R l : flow_of (fun i j => (1 - R i j)%num) l = (qn (length l) - flow_of R l)%num.
Proof. unfold flow_of. induction l as [|st l IH]; [rewrite !sumL_nil; cbn; rewrite qn_0; ring|]. rewrite !sumL_cons, IH. cbn [length]. rewrite qn_S. ring. Qed.
Lemma optimal_flow_spec lsa ns nt R v d d' : cheapest lsa -> find_optimal_flow lsa ns nt R = (v, d, d') ->
  exists l, assignment ns nt l /\ v = flow_of R l /\ (forall l', assignment ns nt l' -> (flow_of R l' <= v)%num) /\
    (forall s t, aget Nat.eqb d s = Some t <-> In (s, t) l) /\ (forall s t, aget Nat.eqb d' t = Some s <-> In (s, t) l).
Proof.
  intros HL E. specialize (HL ns nt (fun i j => (1 - R i j)%num)). unfold find_optimal_flow in E. destruct (lsa ns nt _) as [rows cols]. cbn [fst snd] in HL. destruct HL as (_ & HA & HM). injection E as <- <- <-.
  exists (combine rows cols). split; [exact HA|]. split; [reflexivity|]. destruct HA as (HLen & H1 & H2 & _). split; [|split].
  - intros l' Hl'. specialize (HM l' Hl'). rewrite !flow_of_cost, HLen, (proj1 Hl') in HM. fold (flow_of R (combine rows cols)). qlra.
  - intros s t. now apply dict_pairs.
  - intros s t. set (l := combine rows cols) in *. clearbody l. transitivity (In (t, s) (map (fun st => (snd st, fst st)) l)).
    + rewrite <- (dict_pairs _ t s) by (rewrite map_map; exact H2). assert (EF : forall d0, fold_left (fun d st => aset Nat.eqb d (snd st) (fst st)) l d0 = fold_left (fun d st => aset Nat.eqb d (fst st) (snd st)) (map (fun st => (snd st, fst st)) l) d0).
      { clear. induction l as [|st l IH]; intros d0; [reflexivity|]. cbn. apply IH. } now rewrite EF.
    + rewrite in_map_iff. split; [intros ([a b] & E & Hin); cbn in E; injection E as -> ->; exact Hin|intros Hin; now exists (s, t)].
Qed.

(** ** sparse_outer *)
Lemma entry_insert_perm e l : Permutation (entry_insert e l) (e :: l).
Proof. induction l as [|f l IH]; cbn; [reflexivity|]. destruct (fst e <=? fst f); [reflexivity|]. rewrite IH. apply perm_swap. Qed.
Lemma cleaned_perm p : Permutation (cleaned_row p) (filter (fun e => negb (qeqb (snd e) 0%num)) p).
Proof. unfold cleaned_row. induction (filter _ p) as [|e l IH]; cbn; [reflexivity|]. rewrite entry_insert_perm. now apply perm_skip. Qed.
Lemma cleaned_entry p i : entry (cleaned_row p) i = entry p i.
Proof.
  unfold entry. rewrite (sumL_perm _ _ _ (cleaned_perm p)), sumL_filter. apply sumL_ext. intros e _. destruct (qeqb_spec (snd e) 0%num) as [E|]; cbn [negb]; [|reflexivity]. rewrite E. now destruct (_ =? _).
Qed.
Lemma cleaned_sorted p : NoDup (map fst p) -> StronglySorted lt (map fst (cleaned_row p)).
Proof.
  intros Hn. unfold cleaned_row. assert (Hf : NoDup (map fst (filter (fun e => negb (qeqb (snd e) 0%num)) p))).
  { induction p as [|e p IH]; cbn; [constructor|]. inversion Hn as [|? ? Hx Hp]; subst. destruct (negb _); [|now apply IH]. cbn. constructor; [|now apply IH]. intros H. apply Hx. apply in_map_iff in H. destruct H as (f & E & H). apply filter_In in H. rewrite <- E. apply in_map. tauto. }
  revert Hf. induction (filter _ p) as [|e l IH]; cbn [fold_right map]; intros Hf; [constructor|]. inversion Hf as [|? ? Hx Hl]; subst. specialize (IH Hl).
  assert (Hx' : ~ In (fst e) (map fst (fold_right entry_insert [] l))).
  { intros H. apply Hx. revert H. apply Permutation_in. apply Permutation_map. clear. induction l as [|f l IH]; cbn; [reflexivity|]. rewrite entry_insert_perm. now apply perm_skip. }
  revert IH Hx'. generalize (fold_right entry_insert [] l). induction l0 as [|f r IHr]; intros Hs Hx'; cbn [entry_insert map]; [constructor; constructor|]. cbn [map] in Hs, Hx'. inversion Hs as [|? ? Hr HF]; subst.
  destruct (Nat.leb_spec (fst e) (fst f)) as [Hle|Hgt]; cbn [map].
  - assert (fst e < fst f) by (assert (fst e <> fst f) by (intros E; apply Hx'; left; now symmetry); lia). constructor; [exact Hs|]. constructor; [assumption|]. rewrite Forall_forall in *. intros y Hy. specialize (HF y Hy). lia.
  - constructor; [apply IHr; [exact Hr|intros H; apply Hx'; now right]|]. rewrite Forall_forall in *. intros y Hy. assert (Hy' : y = fst e \/ In y (map fst r)).
    { apply in_map_iff in Hy. destruct Hy as (g & E & Hg). apply (Permutation_in _ (entry_insert_perm e r)) in Hg. destruct Hg as [<-|Hg]; [now left|right]. rewrite <- E. now apply in_map. }
    destruct Hy' as [->|Hy']; [exact Hgt|now apply HF].
Qed.

(** rows of the result; [whole]: the entries of the whole vector, or only those from here on *)
Section Outer.
Context (whole : option (list (nat * num))).
Definition block (q : list (nat * num)) : list (nat * num) :=
  match q with [] => [] | e :: _ => map (fun f => (fst f, (snd e * snd f)%num)) (match whole with Some w => w | None => q end) end.
Fixpoint blocks (q : list (nat * num)) (s left : nat) : list (list (nat * num)) :=
  match left with
  | 0 => []
  | S left' => match q with
               | e :: r => if fst e =? s then block q :: blocks r (S s) left' else [] :: blocks q (S s) left'
               | [] => [] :: blocks [] (S s) left'
               end
  end.
Fixpoint all_blocks (q : list (nat * num)) : list (list (nat * num)) := match q with [] => [] | _ :: r => block q :: all_blocks r end.
Lemma blocks_length q s left : length (blocks q s left) = left.
Proof. revert q s. induction left as [|left IH]; intros [|e q] s; cbn [blocks]; try reflexivity; cbn; [now rewrite IH|]. destruct (fst e =? s); cbn; now rewrite IH. Qed.
Lemma blocks_concat q s left : StronglySorted lt (map fst q) -> (forall e, In e q -> s <= fst e < s + left) -> concat (blocks q s left) = concat (all_blocks q).
Proof.
  revert q s. induction left as [|left IH]; intros [|e q] s Hs Hb; cbn [blocks]; try reflexivity.
  - exfalso. specialize (Hb e (or_introl eq_refl)). lia.
  - cbn [concat app]. rewrite IH; [reflexivity|exact Hs|intros e []].
  - inversion Hs as [|? ? Hq HF]; subst. destruct (Nat.eqb_spec (fst e) s) as [E|E]; cbn [concat app all_blocks].
    + rewrite IH; [reflexivity|exact Hq|]. intros f Hf. rewrite Forall_forall in HF. specialize (HF (fst f) (in_map fst _ _ Hf)). specialize (Hb f (or_intror Hf)). lia.
    + rewrite IH; [reflexivity|exact Hs|]. intros f Hf. pose proof (Hb f Hf). pose proof (Hb e (or_introl eq_refl)). destruct Hf as [<-|Hf]; [lia|]. rewrite Forall_forall in HF. specialize (HF (fst f) (in_map fst _ _ Hf)). lia.
Qed.
(** the row of each index *)
Lemma blocks_nth q s left k : StronglySorted lt (map fst q) -> (forall e, In e q -> s <= fst e) -> k < left ->
  nth k (blocks q s left) [] = match whole with
    | Some w => map (fun f => (fst f, (entry q (s + k) * snd f)%num)) (if memb (s + k) (map fst q) then w else [])
    | None => map (fun f => (fst f, (entry q (s + k) * snd f)%num)) (if memb (s + k) (map fst q) then filter (fun f => s + k <=? fst f) q else [])
    end.
Proof.
  revert q s k. induction left as [|left IH]; intros q s k Hs Hb Hk; [lia|]. cbn [blocks]. destruct q as [|e q].
  - cbn [map memb existsb]. destruct k as [|k]; cbn [nth]; [now destruct whole|]. rewrite IH by (assumption || (intros e []) || lia). cbn [map memb existsb]. now destruct whole.
  - inversion Hs as [|? ? Hq HF]; subst. rewrite Forall_forall in HF. assert (HF' : forall f, In f q -> fst e < fst f) by (intros f Hf; now apply HF, in_map). pose proof (Hb e (or_introl eq_refl)) as He.
    assert (Hz : forall i, i <= fst e -> entry q i = 0%num) by (intros i Hi; unfold entry; apply sumL_zero; intros f Hf; specialize (HF' f Hf); destruct (Nat.eqb_spec (fst f) i); [lia|reflexivity]).
    destruct (Nat.eqb_spec (fst e) s) as [E|E].
    + destruct k as [|k]; cbn [nth].
      * rewrite Nat.add_0_r, <- E. unfold block. assert (EE : entry (e :: q) (fst e) = snd e) by (unfold entry; rewrite sumL_cons, Nat.eqb_refl; fold (entry q (fst e)); rewrite Hz by lia; ring). rewrite EE.
        cbn [map memb existsb]. rewrite Nat.eqb_refl. cbn [orb]. destruct whole as [w|]; [reflexivity|]. f_equal. symmetry. rewrite (filter_ext_in _ (fun _ => true)); [clear; induction (e :: q) as [|x l IHl]; [reflexivity|cbn; now rewrite IHl]|].
        intros f Hf. apply Nat.leb_le. destruct Hf as [<-|Hf]; [lia|]. specialize (HF' f Hf). lia.
      * rewrite IH; [|exact Hq|intros f Hf; specialize (HF' f Hf); lia|lia]. replace (S s + k) with (s + S k) by lia.
        assert (EE : entry (e :: q) (s + S k) = entry q (s + S k)) by (unfold entry; rewrite sumL_cons; destruct (Nat.eqb_spec (fst e) (s + S k)); [lia|]; ring). rewrite EE. cbn [map memb existsb].
        destruct (Nat.eqb_spec (s + S k) (fst e)); [lia|]. cbn [orb]. destruct whole as [w|]; [reflexivity|]. cbn [filter]. destruct (Nat.leb_spec (s + S k) (fst e)); [lia|]. reflexivity.
    + destruct k as [|k]; cbn [nth].
      * rewrite Nat.add_0_r. assert (EM : memb s (map fst (e :: q)) = false).
        { apply not_true_iff_false. rewrite memb_In. intros [H|H]; [lia|]. apply HF in H. lia. } rewrite EM. now destruct whole.
      * rewrite IH; [|exact Hs|intros f [<-|Hf]; [lia|specialize (HF' f Hf); lia]|lia]. now replace (S s + k) with (s + S k) by lia.
Qed.
End Outer.
Lemma all_blocks_triu q : map snd (concat (all_blocks None q)) = outer_triu (map snd q).
Proof. induction q as [|e q IH]; [reflexivity|]. cbn [all_blocks concat map outer_triu]. rewrite map_app, IH. f_equal. unfold block. now rewrite !map_map. Qed.
Lemma all_blocks_full w q : map snd (concat (all_blocks (Some w) q)) = flat_map (fun x => map (fun y => (x * y)%num) (map snd w)) (map snd q).
Proof. induction q as [|e q IH]; [reflexivity|]. cbn [all_blocks concat map flat_map]. rewrite map_app, IH. f_equal. unfold block. now rewrite !map_map. Qed.
Lemma all_blocks_full_idx w q : map fst (concat (all_blocks (Some w) q)) = concat (map (fun _ => map fst w) (map fst q)).
Proof. induction q as [|e q IH]; [reflexivity|]. cbn [all_blocks concat map flat_map]. rewrite map_app, IH. f_equal. unfold block. now rewrite !map_map. Qed.
Lemma suffix_filter (pre idx : list nat) : StronglySorted lt (pre ++ idx) -> map (fun r => filter (fun c => r <=? c) (pre ++ idx)) idx = map (fun r => filter (fun c => r <=? c) idx) idx.
Proof.
  intros Hs. apply map_ext_in. intros r Hr. rewrite filter_app. rewrite (filter_ext_in _ (fun _ => false) pre); [now replace (filter (fun _ => false) pre) with (@nil nat) by (clear; induction pre; auto)|].
  intros c Hc. apply Nat.leb_gt. clear - Hs Hr Hc. induction pre as [|x pre IH]; [destruct Hc|]. cbn in Hs. inversion Hs as [|? ? H1 H2]; subst. destruct Hc as [->|Hc]; [|now apply IH]. rewrite Forall_forall in H2. apply H2, in_app_iff. now right.
Qed.
Lemma triu_lists q : StronglySorted lt (map fst q) -> map (fun r => filter (fun c => r <=? c) (map fst q)) (map fst q) = map (map fst) (all_blocks None q).
Proof.
  induction q as [|e q IH]; intros Hs; [reflexivity|]. cbn [map all_blocks]. f_equal.
  - unfold block. rewrite map_map. cbn [map filter]. rewrite Nat.leb_refl. inversion Hs as [|? ? Hq HF]; subst. cbn [map fst]. f_equal. rewrite (filter_ext_in _ (fun _ => true)); [replace (map (fun x => fst (fst x, (snd e * snd x)%num)) q) with (map fst q) by (apply map_ext; reflexivity); clear; induction (map fst q) as [|x l IHl]; [reflexivity|cbn; now rewrite IHl]|].
    intros c Hc. apply Nat.leb_le. rewrite Forall_forall in HF. specialize (HF c Hc). lia.
  - rewrite <- IH by (now inversion Hs). exact (suffix_filter [fst e] (map fst q) Hs).
Qed.
Lemma take_next_blocks whole idx q : forall s left, StronglySorted lt (map fst q) -> (forall e, In e q -> s <= fst e < s + left) -> (forall r, s <= r -> memb r idx = memb r (map fst q)) ->
  take_next idx (map (@length _) (all_blocks whole q)) (seq s left) = Some (map (@length _) (blocks whole q s left)).
Proof.
  intros s left. revert q s. induction left as [|left IH]; intros q s Hs Hb Hm; [reflexivity|]. cbn [seq take_next blocks]. rewrite (Hm s) by lia. destruct q as [|e q].
  - cbn [map memb existsb]. cbn [all_blocks map] in IH. specialize (IH [] (S s) Hs ltac:(intros e []) ltac:(intros r Hr; apply Hm; lia)). cbn [all_blocks map] in *. rewrite IH. reflexivity.
  - inversion Hs as [|? ? Hq HF]; subst. rewrite Forall_forall in HF. pose proof (Hb e (or_introl eq_refl)) as He. destruct (Nat.eqb_spec (fst e) s) as [E|E].
    + cbn [map memb existsb]. rewrite E, Nat.eqb_refl. cbn [orb]. cbn [all_blocks map]. rewrite IH; [reflexivity|exact Hq| |].
      * intros f Hf. specialize (HF _ (in_map fst _ _ Hf)). specialize (Hb f (or_intror Hf)). lia.
      * intros r Hr. rewrite Hm by lia. cbn [map memb existsb]. destruct (Nat.eqb_spec r (fst e)); [lia|reflexivity].
    + assert (EM : memb s (map fst (e :: q)) = false). { apply not_true_iff_false. rewrite memb_In. intros [H|H]; [lia|]. apply HF in H. lia. } rewrite EM. rewrite IH; [reflexivity|exact Hs| |intros r Hr; apply Hm; lia].
      intros f Hf. pose proof (Hb f Hf). destruct Hf as [<-|Hf]; [lia|]. specialize (HF _ (in_map fst _ _ Hf)). lia.
Qed.
Lemma count_blocks w q : forall s left, StronglySorted lt (map fst q) -> (forall e, In e q -> s <= fst e) ->
  map (fun r => if memb r (map fst q) then length (map fst w) else 0) (seq s left) = map (@length _) (blocks (Some w) q s left).
Proof.
  intros s left Hs Hb. apply (nth_ext _ _ 0 0); [now rewrite !map_length, seq_length, blocks_length|]. intros k Hk. rewrite map_length, seq_length in Hk.
  rewrite (nth_map_dep _ _ _ 0) by (now rewrite seq_length). rewrite seq_nth by exact Hk. rewrite (nth_map_dep _ _ _ []) by (now rewrite blocks_length). rewrite blocks_nth by assumption. destruct (memb _ _); [now rewrite !map_length|reflexivity].
Qed.
Lemma last_ptrs rows : last (ptrs 0 rows) 0 = length (concat rows).
Proof.
  assert (H : forall rows s, last (ptrs s rows) 0 = s + length (concat rows)).
  { clear. induction rows as [|r rows IH]; intros s; [cbn; lia|]. cbn [ptrs concat]. rewrite app_length. transitivity (last (ptrs (s + length r) rows) 0); [|rewrite IH; lia]. destruct rows; reflexivity. }
  apply H.
Qed.
Lemma checked_rows rows : checked_csr (map snd (concat rows)) (map fst (concat rows)) (ptrs 0 rows) = Some (of_rows rows).
Proof.
  unfold checked_csr. rewrite last_ptrs, !map_length, Nat.eqb_refl, Nat.leb_refl. cbn [andb]. unfold of_rows. f_equal. f_equal; apply firstn_all2; now rewrite map_length.
Qed.
Lemma sparse_outer_spec n p triu : NoDup (map fst p) -> (forall e, In e p -> fst e < n) -> 1 <= nonzero_entries p -> (triu = false -> 2 <= nonzero_entries p) ->
  exists F, sparse_outer n p triu = Some F /\ csr_ok n F /\ forall i j, i < n -> j < n -> value F i j = outer_product p triu i j.
Proof.
  intros Hn Hb H1 H2. set (q := cleaned_row p). assert (Hs : StronglySorted lt (map fst q)) by now apply cleaned_sorted.
  assert (Hq : forall e, In e q -> 0 <= fst e < 0 + n). { intros e He. apply (Permutation_in _ (cleaned_perm p)) in He. apply filter_In in He. specialize (Hb e (proj1 He)). lia. }
  assert (HL : length q = nonzero_entries p) by (apply Permutation_length, cleaned_perm).
  set (whole := if triu then None else Some q). set (rows := blocks whole q 0 n).
  assert (HO : sparse_outer n p triu = Some (of_rows rows)).
  { unfold sparse_outer. fold q. cbn zeta. rewrite !map_length, HL. destruct (Nat.eqb_spec (nonzero_entries p) 0) as [|_]; [lia|]. cbn [orb]. destruct triu; cbn [negb andb].
    - rewrite (triu_lists q Hs). rewrite map_map. rewrite (map_ext _ (@length (nat * num))) by (intros; apply map_length).
      rewrite (take_next_blocks None (map fst q) q 0 n Hs Hq (fun _ _ => eq_refl)). rewrite cumsum_ptrs. rewrite <- concat_map. rewrite <- (blocks_concat None q 0 n Hs Hq), <- all_blocks_triu, <- (blocks_concat None q 0 n Hs Hq). apply checked_rows.
    - destruct (Nat.eqb_spec (nonzero_entries p) 1) as [E|_]; [specialize (H2 eq_refl); lia|]. rewrite <- HL, <- (map_length fst q).
      rewrite (count_blocks q q 0 n Hs) by (intros e He; apply Hq in He; lia). rewrite cumsum_ptrs. unfold outer_all. rewrite <- all_blocks_full, <- all_blocks_full_idx, <- (blocks_concat (Some q) q 0 n Hs Hq). apply checked_rows. }
  exists (of_rows rows). split; [exact HO|]. assert (HR : forall k, k < n -> nth k rows [] = map (fun f => (fst f, (entry q k * snd f)%num)) (if memb k (map fst q) then (if triu then filter (fun f => k <=? fst f) q else q) else [])).
  { intros k Hk. unfold rows. rewrite blocks_nth; [|exact Hs|intros; apply Nat.le_0_l|exact Hk]. unfold whole. rewrite Nat.add_0_l. destruct triu; [|reflexivity]. reflexivity. }
  assert (Hlen : length rows = n) by apply blocks_length. split.
  - apply csr_ok_of_rows; [exact Hlen|]. intros r e Hr He. apply (In_nth _ _ []) in Hr. destruct Hr as (k & Hk & <-). rewrite Hlen in Hk. rewrite HR in He by exact Hk. apply in_map_iff in He. destruct He as (f & <- & Hf). cbn [fst].
    destruct (memb k (map fst q)); [|destruct Hf]. assert (Hf' : In f q) by (destruct triu; [now apply filter_In in Hf|exact Hf]). specialize (Hq f Hf'). lia.
  - intros i j Hi Hj. rewrite value_rows by (now rewrite Hlen). rewrite HR by exact Hi. unfold outer_product. rewrite <- (cleaned_entry p i), <- (cleaned_entry p j). fold q.
    assert (Hout : memb i (map fst q) = false -> entry q i = 0%num).
    { intros EM. unfold entry. apply sumL_zero. intros e He. destruct (Nat.eqb_spec (fst e) i) as [E|]; [|reflexivity]. exfalso. rewrite <- not_true_iff_false, memb_In in EM. apply EM. rewrite <- E. now apply in_map. }
    assert (HE : forall l, scattered (map (fun f => (fst f, (entry q i * snd f)%num)) l) j = (entry q i * entry l j)%num).
    { intros l. unfold scattered, entry at 3. rewrite sumL_map, <- sumL_scal_l. apply sumL_ext. intros e _. cbn [fst snd]. destruct (_ =? _); ring. }
    rewrite HE. destruct (memb i (map fst q)) eqn:EM; [|rewrite (Hout eq_refl); destruct triu; [destruct (i <=? j)|]; ring].
    destruct triu; [|reflexivity]. assert (EF : entry (filter (fun f => i <=? fst f) q) j = if i <=? j then entry q j else 0%num).
    { unfold entry. rewrite sumL_filter. destruct (Nat.leb_spec i j) as [Hij|Hij].
      - apply sumL_ext. intros e _. destruct (Nat.eqb_spec (fst e) j) as [E|]; [|now destruct (i <=? fst e)]. destruct (Nat.leb_spec i (fst e)); [reflexivity|lia].
      - apply sumL_zero. intros e _. destruct (Nat.leb_spec i (fst e)); [|reflexivity]. destruct (Nat.eqb_spec (fst e) j); [lia|reflexivity]. }
    rewrite EF. destruct (i <=? j); ring.
Qed.

(** ** compute_parallel_expm *)
Lemma column_max_spec m c : 0 < m -> (exists k, k < m /\ column_max m c = c k) /\ forall k, k < m -> (c k <= column_max m c)%num.
Proof.
  intros Hm. unfold column_max. destruct m as [|m]; [lia|]. cbn [seq map list_max]. destruct (fold_qmax_spec (map c (seq 1 m)) (c 0)) as [H1 H2]. split.
  - destruct H2 as [H2|H2]; [exists 0; split; [lia|now symmetry]|]. apply in_map_iff in H2. destruct H2 as (k & E & Hk). apply in_seq in Hk. exists k. split; [lia|now symmetry].
  - intros [|k] Hk; apply H1; [now left|right]. apply in_map, in_seq. lia.
Qed.
Section Parallel.
Context (G : nat -> mat -> (nat -> num) -> nat -> num) (m : nat) (A E : mat).
Hypothesis HG : forall v a, a < m -> G m A v a = sumN m (fun b => (E a b * v b)%num).
Hypothesis HE : stochastic m E.
Definition kept_entry (thresh_ratio : option num) (i j : nat) : Prop :=
  match thresh_ratio with None => True | Some r => forall k, k < m -> (E k j / r <= E i j)%num end.
Lemma unit_column i a : i < m -> a < m -> G m A (fun k => if k =? i then 1%num else 0%num) a = E a i.
Proof. intros Hi Ha. rewrite HG by exact Ha. rewrite <- (sumN_delta m i (E a) Hi). apply sumN_ext. intros k _. destruct (k =? i); ring. Qed.
Lemma worker_value thresh i a : i < m -> a < m -> (forall r, thresh = Some r -> (0 < r)%num) ->
  (kept_entry thresh a i /\ worker_column G m A thresh i a = E a i) \/ (~ kept_entry thresh a i /\ worker_column G m A thresh i a = 0%num).
Proof.
  intros Hi Ha Hr. unfold worker_column, kept_entry. destruct thresh as [r|]; [|left; split; [exact I|now apply unit_column]]. specialize (Hr r eq_refl). set (c := G m A _). assert (Hc : forall k, k < m -> c k = E k i) by (intros; now apply unit_column).
  destruct (column_max_spec m c ltac:(lia)) as [(k & Hk & Ek) HM]. assert (Hi' : (0 < / r)%num) by now apply qinv_pos.
  destruct (qltb_spec (c a) (column_max m c / r)%num) as [Hlt|Hge].
  - right. split; [|reflexivity]. intros H. specialize (H k Hk). rewrite Ek, !Hc in Hlt by assumption. revert Hlt. now apply Qcle_not_lt.
  - left. split; [|now apply Hc]. intros k' Hk'. apply Qcnot_lt_le in Hge. rewrite (Hc a Ha) in Hge. apply Qcle_trans with (column_max m c / r)%num; [|exact Hge].
    unfold Qcdiv. apply Qcmult_le_compat_r; [rewrite <- Hc by exact Hk'; now apply HM|now apply Qclt_le_weak].
Qed.
Lemma parallel_ok thresh nrm : csr_ok m (compute_parallel_expm G m A thresh nrm).
Proof. unfold compute_parallel_expm. set (T := csr_of_dense _ _). assert (HT : csr_ok m T) by apply csr_of_dense_spec. destruct nrm; [apply (normalise_rows m T _ HT)|exact HT]. Qed.
Lemma parallel_value thresh i j : i < m -> j < m -> value (compute_parallel_expm G m A thresh false) i j = worker_column G m A thresh j i.
Proof.
  intros Hi Hj. unfold compute_parallel_expm. rewrite (proj1 (proj2 (csr_of_dense_spec m _)) i j Hi Hj). rewrite (nth_map_dep _ _ _ 0) by (now rewrite seq_length). now rewrite seq_nth.
Qed.
Lemma parallel_entry thresh i j : i < m -> j < m -> (forall r, thresh = Some r -> (0 < r)%num) ->
  (kept_entry thresh i j /\ value (compute_parallel_expm G m A thresh false) i j = E i j) \/ (~ kept_entry thresh i j /\ value (compute_parallel_expm G m A thresh false) i j = 0%num).
Proof. intros Hi Hj Hr. rewrite parallel_value by assumption. now apply worker_value. Qed.
Lemma parallel_normalised thresh : csr_row_normalise (compute_parallel_expm G m A thresh false) m (fun _ => 1%num) = compute_parallel_expm G m A thresh true.
Proof. reflexivity. Qed.
(** a ratio of at least the number of columns leaves something in each row *)
Lemma parallel_row_sum thresh i : i < m -> (forall r, thresh = Some r -> (qn m <= r)%num) ->
  (0 < sumN m (value (compute_parallel_expm G m A thresh false) i) /\ sumN m (value (compute_parallel_expm G m A thresh false) i) <= 1)%num.
Proof.
  intros Hi Hr. destruct HE as [Hpos Hsum]. assert (Hm0 : (0 < qn m)%num) by (rewrite <- qn_0; apply qn_lt; lia).
  assert (Hr' : forall r, thresh = Some r -> (0 < r)%num) by (intros r E0; specialize (Hr r E0); qlra). set (T := value _).
  assert (HT : forall j, j < m -> (kept_entry thresh i j /\ T i j = E i j) \/ (~ kept_entry thresh i j /\ T i j = 0%num)) by (intros j Hj; now apply parallel_entry).
  assert (Hup : (sumN m (T i) <= 1)%num). { rewrite <- (Hsum i Hi). apply sumL_le. intros j Hj. apply in_seq in Hj. destruct (HT j) as [[_ ->]|[_ ->]]; [lia|apply Qcle_refl|apply Hpos; lia]. }
  assert (Hlo : forall j, j < m -> (0 <= T i j)%num) by (intros j Hj; destruct (HT j Hj) as [[_ ->]|[_ ->]]; [now apply Hpos|apply Qcle_refl]).
  split; [|exact Hup]. assert (H0 : (0 <= sumN m (T i))%num) by (apply sumL_nonneg; intros j Hj; apply in_seq in Hj; apply Hlo; lia).
  apply Qcnot_le_lt. intros Hle. assert (Hz : forall j, j < m -> T i j = 0%num).
  { intros j Hj. apply Qcle_antisym; [|now apply Hlo]. apply Qcle_trans with (sumN m (T i)); [|exact Hle]. rewrite <- (sumN_delta m j (T i) Hj). apply sumL_le. intros k Hk. apply in_seq in Hk. destruct (k =? j); [apply Qcle_refl|apply Hlo; lia]. }
  destruct thresh as [r|].
  - pose proof (Hr r eq_refl) as Hmr. pose proof (Hr' r eq_refl) as Hr0. assert (Hlt : forall j, j < m -> (E i j < / r)%num).
    { intros j Hj. assert (Hi' : (0 < / r)%num) by now apply qinv_pos. destruct (HT j Hj) as [[_ E0]|[Hn _]]; [rewrite <- E0, (Hz j Hj); exact Hi'|].
      apply Qcnot_le_lt. intros Hge. apply Hn. intros k Hk. apply Qcle_trans with (/ r)%num; [|exact Hge]. unfold Qcdiv. rewrite <- (Qcmult_1_l (/ r)%num) at 2. apply Qcmult_le_compat_r; [|now apply Qclt_le_weak].
      rewrite <- (Hsum k Hk), <- (sumN_delta m j (E k) Hj). apply sumL_le. intros l Hl. apply in_seq in Hl. destruct (l =? j); [apply Qcle_refl|apply Hpos; lia]. }
    assert (HS : (sumN m (E i) < qn m * / r)%num).
    { clear - Hlt Hi. assert (Q : forall k, k <= m -> (sumN k (E i) <= qn k * / r)%num /\ (0 < k -> (sumN k (E i) < qn k * / r)%num)).
      { induction k as [|k IH]; intros Hk; [split; [rewrite qn_0; cbn; qlra|lia]|]. destruct (IH ltac:(lia)) as [H1 _]. specialize (Hlt k ltac:(lia)). assert (H2 : (sumN (S k) (E i) < qn (S k) * / r)%num); [|split; [now apply Qclt_le_weak|auto]].
        rewrite sumN_S, qn_S. replace ((1 + qn k) * / r)%num with (qn k * / r + / r)%num by ring. qlra. }
      apply (proj2 (Q m (le_n m))). lia. }
    rewrite (Hsum i Hi) in HS. assert (HF : (qn m * / r <= 1)%num). { rewrite <- (Qcmult_inv_r r) by (intros E0; rewrite E0 in Hr0; revert Hr0; apply Qcle_not_lt, Qcle_refl). apply Qcmult_le_compat_r; [exact Hmr|]. now apply Qclt_le_weak, qinv_pos. }
    revert HF. now apply Qclt_not_le.
  - pose proof (Hsum i Hi) as H1. rewrite (sumN_ext m (E i) (fun _ => 0%num)) in H1; [unfold sumN in H1; rewrite sumL_zero in H1 by reflexivity; discriminate|]. intros j Hj. destruct (HT j Hj) as [[_ E0]|[Hn _]]; [rewrite <- E0; now apply Hz|]. exfalso. now apply Hn.
Qed.
End Parallel.
