(** Properties C180 and C181: the thresholds of exponentials computed by parts. *)
From Verif Require Import Base LouvainModel SparseModel SparseSpec SparseProofs SparseOpsProofs SparseConvProofs SparseProps EventsModel EventsSpec TransModel TransSpec MatProofs TransProofs ExpmProofs SmallSpec Components.

Ltac compute_all := vm_compute; repeat first [reflexivity | apply Qc_is_canon; reflexivity | apply (f_equal2 (@cons num))].
(** an entry is kept when it is not smaller than the largest entry of the matrix over the ratio *)
Definition large_enough (n : nat) (E : mat) (r : num) (i j : nat) : Prop := forall k l, k < n -> l < n -> (E k l / r <= E i j)%num.
(** [T] is [E] without the other entries *)
Definition trimmed (n : nat) (E : mat) (r : num) (T : mat) : Prop :=
  forall i j, i < n -> j < n -> (large_enough n E r i j -> T i j = E i j) /\ (~ large_enough n E r i j -> T i j = 0%num).

(** ** A matrix with at most one entry per position *)
Lemma value_entry M i j v : NoDup (map fst (row_entries M i)) -> In (j, v) (row_entries M i) -> value M i j = v.
Proof.
  intros Hn Hv. destruct (value_single M i j Hn) as [(w & Hw & E)|[Hw _]]; [|now apply Hw in Hv]. rewrite E. clear -Hn Hv Hw. induction (row_entries M i) as [|[c x] l IH]; [destruct Hv|]. cbn [map fst] in Hn. inversion Hn as [|? ? Hc Hl]; subst.
  destruct Hv as [Hv|Hv], Hw as [Hw|Hw]; [congruence| | |now apply IH]; exfalso; apply Hc.
  - injection Hv as -> _. now apply (in_map fst) in Hw.
  - injection Hw as -> _. now apply (in_map fst) in Hv.
Qed.
Lemma cut_spec n M b : csr_ok n M -> (forall i, i < n -> NoDup (map fst (row_entries M i))) ->
  let M' := eliminate_zeros (mkCsr (map (fun v => if qltb v b then 0%num else v) (c_data M)) (c_idx M) (c_ptr M)) in
  csr_ok n M' /\ forall i j, i < n -> value M' i j = if qltb (value M i j) b then 0%num else value M i j.
Proof.
  intros HM Hn M'. set (h := fun v => if qltb v b then 0%num else v) in *. set (M1 := mkCsr (map h (c_data M)) (c_idx M) (c_ptr M)) in *.
  assert (HM1 : csr_ok n M1) by (apply csr_ok_data; [exact HM|apply map_length]). split; [apply eliminate_zeros_spec, HM1|].
  intros i j Hi. unfold M'. rewrite (eliminate_zeros_value n M1 i j HM1 Hi). assert (Hr : row_entries M1 i = map (fun e => (fst e, h (snd e))) (row_entries M i)) by (now apply (row_entries_map_data n)).
  assert (Hn1 : NoDup (map fst (row_entries M1 i))) by (rewrite Hr, map_map; now apply Hn).
  destruct (value_single M i j (Hn i Hi)) as [(v & Hv & ->)|[Hv ->]].
  - apply value_entry; [exact Hn1|]. rewrite Hr. apply in_map_iff. exists (j, v). auto.
  - destruct (value_single M1 i j Hn1) as [(w & Hw & _)|[_ ->]]; [|now destruct (qltb _ _)]. exfalso. rewrite Hr in Hw. apply in_map_iff in Hw. destruct Hw as ([c y] & E & He). injection E as -> _. now apply Hv in He.
Qed.

(** ** The assembled matrix *)
Lemma assemble_row n lab X i : i < n -> row_entries (assemble n lab X) i = map (fun b => (nth b (members n lab (lab i)) 0, X (lab i) (position i (members n lab (lab i))) b)) (seq 0 (length (members n lab (lab i)))).
Proof. intros Hi. unfold assemble. rewrite row_entries_of_rows by (now rewrite map_length, seq_length). rewrite (nth_map_dep _ _ _ 0) by (now rewrite seq_length). now rewrite seq_nth. Qed.
Lemma assemble_distinct n lab X i : i < n -> NoDup (map fst (row_entries (assemble n lab X) i)).
Proof. intros Hi. rewrite assemble_row, map_map by exact Hi. cbn [fst]. rewrite (map_nth_seq _ 0). apply members_NoDup. Qed.
Lemma assemble_data n lab X v : In v (c_data (assemble n lab X)) -> exists i j, i < n /\ j < n /\ value (assemble n lab X) i j = v.
Proof.
  intros Hv. assert (Hx : exists i e, i < n /\ In e (row_entries (assemble n lab X) i) /\ snd e = v).
  { change (c_data (assemble n lab X)) with (map snd (concat (map (fun row => map (fun b => (nth b (members n lab (lab row)) 0, X (lab row) (position row (members n lab (lab row))) b)) (seq 0 (length (members n lab (lab row))))) (seq 0 n)))) in Hv.
    apply in_map_iff in Hv. destruct Hv as (e & Ee & He). apply in_concat in He. destruct He as (row & Hrow & He). apply in_map_iff in Hrow. destruct Hrow as (i & <- & Hi). apply in_seq in Hi. exists i, e. split; [lia|]. split; [rewrite assemble_row by lia; exact He|exact Ee]. }
  destruct Hx as (i & [j w] & Hi & He & Ew). cbn in Ew. subst w. exists i, j. split; [exact Hi|]. split; [|now apply value_entry; [apply assemble_distinct|]].
  rewrite assemble_row in He by exact Hi. apply in_map_iff in He. destruct He as (b & Eb & Hb). injection Eb as Eb _. apply in_seq in Hb. rewrite <- Eb. assert (HI : In (nth b (members n lab (lab i)) 0) (members n lab (lab i))) by (apply nth_In; lia). now apply members_spec in HI.
Qed.
Lemma thresholded_assemble n lab X r E : (0 < r)%num -> eqm n (value (assemble n lab X)) E -> (forall i j, i < n -> j < n -> (0 <= E i j)%num) ->
  csr_ok n (thresholded (Some r) (assemble n lab X)) /\ trimmed n E r (value (thresholded (Some r) (assemble n lab X))).
Proof.
  intros Hr HE Hpos. pose proof (proj1 (assemble_spec n lab X)) as HM. pose proof (fun i Hi => assemble_distinct n lab X i Hi) as Hn. pose proof (assemble_data n lab X) as Hd. set (M := assemble n lab X) in *.
  unfold thresholded. set (b := (list_max (c_data M) / r)%num). destruct (cut_spec n M b HM Hn) as [H1 H2]. split; [exact H1|]. intros i j Hi Hj. rewrite H2, (HE i j Hi Hj) by exact Hi. pose proof (qinv_pos r Hr) as Hir.
  destruct (c_data M) as [|x l] eqn:Ed.
  - assert (HZ : forall a d, a < n -> d < n -> E a d = 0%num).
    { intros a d Ha Hdd. rewrite <- (HE a d Ha Hdd). destruct (value_single M a d (Hn a Ha)) as [(v & Hv & _)|[_ ->]]; [|reflexivity]. apply (row_entry_data n M a _ HM Ha) in Hv. rewrite Ed in Hv. destruct Hv. }
    rewrite (HZ i j Hi Hj). destruct (qltb _ _); auto.
  - destruct (fold_qmax_spec l x) as [Hmax Hin]. change (fold_left qmax l x) with (list_max (x :: l)) in Hmax, Hin. set (mx := list_max (x :: l)) in *. destruct (Hd mx Hin) as (a & d & Ha & Hd' & Ev). rewrite (HE a d Ha Hd') in Ev.
    assert (Hall : forall k l', k < n -> l' < n -> (E k l' <= mx)%num).
    { intros k l' Hk Hl. rewrite <- (HE k l' Hk Hl). destruct (value_single M k l' (Hn k Hk)) as [(v & Hv & ->)|[_ ->]]; [|rewrite <- Ev; now apply Hpos]. apply Hmax. rewrite <- Ed. exact (row_entry_data n M k _ HM Hk Hv). }
    destruct (qltb_spec (E i j) b) as [Hlt|Hge].
    + split; [|reflexivity]. intros HL. exfalso. specialize (HL a d Ha Hd'). rewrite Ev in HL. revert HL. now apply Qclt_not_le.
    + split; [reflexivity|]. intros HL. exfalso. apply HL. intros k l' Hk Hl. apply Qcnot_lt_le in Hge. apply Qcle_trans with b; [|exact Hge]. unfold b, Qcdiv. apply Qcmult_le_compat_r; [now apply Hall|now apply Qclt_le_weak].
Qed.

(** ** Rows of a trimmed matrix *)
Lemma qmult_le_l a x y : (0 <= a -> x <= y -> a * x <= a * y)%num.
Proof. intros Ha H. rewrite !(Qcmult_comm a). now apply Qcmult_le_compat_r. Qed.
Lemma above_average m (f : nat -> num) : 0 < m -> exists j, j < m /\ (sumN m f <= qn m * f j)%num.
Proof.
  induction m as [|m IH]; intros Hm; [lia|]. destruct (Nat.eq_dec m 0) as [->|Hne].
  - exists 0. split; [lia|]. rewrite sumN_S, qn_S, qn_0. unfold sumN. cbn [seq]. rewrite sumL_nil. qlra.
  - destruct (IH ltac:(lia)) as (j & Hj & H). destruct (Qclt_le_dec (f j) (f m)) as [Hlt|Hle].
    + exists m. split; [lia|]. rewrite sumN_S, qn_S. assert (H' : (qn m * f j <= qn m * f m)%num) by (apply (qmult_le_l _ _ _ (qn_nonneg m)); now apply Qclt_le_weak). qlra.
    + exists j. split; [lia|]. rewrite sumN_S, qn_S. qlra.
Qed.
Lemma trimmed_row n E r T i : stochastic n E -> (qn n <= r)%num -> trimmed n E r T -> i < n -> (0 < sumN n (T i) /\ sumN n (T i) <= 1)%num /\ forall j, j < n -> (0 <= T i j)%num.
Proof.
  intros [Hpos Hsum] Hr HT Hi. assert (Hn0 : (0 < qn n)%num) by (rewrite <- qn_0; apply qn_lt; lia). assert (Hr0 : (0 < r)%num) by qlra. pose proof (qinv_pos r Hr0) as Hir.
  assert (Hone : forall k l, k < n -> l < n -> (E k l <= 1)%num).
  { intros k l Hk Hl. rewrite <- (Hsum k Hk), <- (sumN_delta n l (E k) Hl). apply sumL_le. intros x Hx. apply in_seq in Hx. destruct (x =? l); [apply Qcle_refl|apply Hpos; lia]. }
  assert (HD : forall j, j < n -> large_enough n E r i j \/ ~ large_enough n E r i j).
  { intros j Hj. assert (Q : forall a, (forall k l, k < a -> l < n -> (E k l / r <= E i j)%num) \/ ~ (forall k l, k < a -> l < n -> (E k l / r <= E i j)%num)); [|exact (Q n)]. induction a as [|a IH]; [left; intros; lia|].
    assert (P : forall d, (forall l, l < d -> (E a l / r <= E i j)%num) \/ ~ (forall l, l < d -> (E a l / r <= E i j)%num)).
    { induction d as [|d IHd]; [left; intros; lia|]. destruct IHd as [Hy|Hno]; [|right; intros H; apply Hno; intros; apply H; lia]. destruct (Qclt_le_dec (E i j) (E a d / r)%num) as [Hlt|Hle].
      - right. intros H. specialize (H d ltac:(lia)). revert H. now apply Qclt_not_le.
      - left. intros l Hl. destruct (Nat.eq_dec l d) as [->|]; [exact Hle|apply Hy; lia]. }
    destruct IH as [Hy|Hno]; [|right; intros H; apply Hno; intros; apply H; lia]. destruct (P n) as [Hy2|Hno]; [|right; intros H; apply Hno; intros; apply H; lia].
    left. intros k l Hk Hl. destruct (Nat.eq_dec k a) as [->|]; [now apply Hy2|apply Hy; lia]. }
  assert (HT0 : forall j, j < n -> (0 <= T i j)%num /\ (T i j <= E i j)%num).
  { intros j Hj. destruct (HT i j Hi Hj) as [H1 H2]. specialize (Hpos i j Hi Hj). destruct (HD j Hj) as [Hy|Hno]; [rewrite (H1 Hy)|rewrite (H2 Hno)]; split; qlra. }
  split; [|intros j Hj; now apply HT0]. split; [|rewrite <- (Hsum i Hi); apply sumL_le; intros j Hj; apply in_seq in Hj; apply HT0; lia].
  destruct (above_average n (E i) ltac:(lia)) as (j & Hj & HA). rewrite (Hsum i Hi) in HA.
  assert (Hbig : (/ r <= E i j)%num).
  { assert (H1 : (/ r * 1 <= / r * (qn n * E i j))%num) by (apply qmult_le_l; [now apply Qclt_le_weak|exact HA]). assert (H2 : (/ r * (qn n * E i j) <= / r * (r * E i j))%num).
    { apply qmult_le_l; [now apply Qclt_le_weak|]. rewrite (Qcmult_comm (qn n)), (Qcmult_comm r). apply qmult_le_l; [now apply Hpos|exact Hr]. }
    assert (H3 : (/ r * (r * E i j))%num = E i j) by (field; now apply qneq_pos). rewrite H3 in H2. qlra. }
  assert (HL : large_enough n E r i j).
  { intros k l Hk Hl. apply Qcle_trans with (/ r)%num; [|exact Hbig]. unfold Qcdiv. rewrite <- (Qcmult_1_l (/ r)%num) at 2. apply Qcmult_le_compat_r; [now apply Hone|now apply Qclt_le_weak]. }
  assert (HS : (T i j <= sumN n (T i))%num). { rewrite <- (sumN_delta n j (T i) Hj) at 1. apply sumL_le. intros k Hk. apply in_seq in Hk. destruct (k =? j); [apply Qcle_refl|apply HT0; lia]. }
  rewrite (proj1 (HT i j Hi Hj) HL) in HS. qlra.
Qed.

(** ** Both functions *)
Section Both.
Context (c : nat -> num) (K : nat) (F : nat -> mat -> mat) (G : nat -> mat -> (nat -> num) -> nat -> num) (HF : computes_poly c K F) (HG : applies_poly c K G).
Context (n : nat) (A : mat) (n_comp : nat) (lab : nat -> nat) (Hc : closed_labels n A n_comp lab) (big : nat).
(** one of the two functions, without normalisation and with it *)
Definition by_parts (r : num) (f : bool -> csr) : Prop :=
  f = subspace_expm F n A n_comp lab (Some r) \/ f = subspace_expm_parallel F G big n A n_comp lab (Some r).
Lemma by_parts_trimmed r f : by_parts r f -> (0 < r)%num -> (forall i j, i < n -> j < n -> (0 <= poly n c K A i j)%num) ->
  csr_ok n (f false) /\ trimmed n (poly n c K A) r (value (f false)) /\ f true = csr_row_normalise (f false) n (fun _ => 1%num).
Proof.
  intros Hf Hr Hpos. assert (HX : exists X, eqm n (value (assemble n lab X)) (poly n c K A) /\ f false = thresholded (Some r) (assemble n lab X) /\ f true = csr_row_normalise (f false) n (fun _ => 1%num)).
  { destruct Hf as [-> | ->].
    - destruct (subspace_poly c K F HF n A n_comp lab false Hc ltac:(discriminate)) as [_ H]. eexists. split; [exact H|]. split; reflexivity.
    - destruct (subspace_parallel_poly c K F G HF HG big n A n_comp lab false Hc ltac:(discriminate)) as [_ H]. eexists. split; [exact H|]. split; reflexivity. }
  destruct HX as (X & HE & E1 & E2). destruct (thresholded_assemble n lab X r _ Hr HE Hpos) as [H1 H2]. rewrite E2, E1. auto.
Qed.
End Both.

(** * C180: compute_subspace_expm and compute_subspace_expm_parallel with a threshold *)
(** With a threshold and normalised rows the result is a transition matrix. *)
Definition C180_statement : Prop := forall c K F G big n A n_comp lab r f, computes_poly c K F -> applies_poly c K G -> closed_labels n A n_comp lab ->
  stochastic n (poly n c K A) -> (1 <= r)%num -> by_parts F G n A n_comp lab big r f -> stochastic n (value (f true)).
(** A node alone, and two nodes that share their probability equally: with a ratio below 2 nothing is left
    in the rows of the two nodes. *)
Definition c180 (k : nat) : num := 1%num.
Definition F180 (m : nat) (A : mat) : mat := poly m c180 1 A.
Definition G180 (m : nat) (A : mat) (v : nat -> num) (a : nat) : num := sumN m (fun b => (poly m c180 1 A a b * v b)%num).
Definition A180 : mat := fun i j => match i, j with 1, 1 | 2, 2 => qf (-1) 2 | 1, 2 | 2, 1 => qf 1 2 | _, _ => 0%num end.
Definition lab180 (i : nat) : nat := match i with 0 => 0 | _ => 1 end.
Lemma parts180 : computes_poly c180 1 F180 /\ applies_poly c180 1 G180 /\ closed_labels 3 A180 2 lab180 /\ stochastic 3 (poly 3 c180 1 A180).
Proof.
  split; [intros m A; apply eqm_refl|]. split; [intros m A v a _; reflexivity|]. split.
  - split; [intros [|i] _; cbn; lia|]. intros [|[|[|i]]] [|[|[|j]]] Hi Hj Hz; try lia; try reflexivity; exfalso; now apply Hz.
  - split; [intros [|[|[|i]]] [|[|[|j]]] Hi Hj; try lia; discriminate|intros [|[|[|i]]] Hi; try lia; vm_compute; now apply Qc_is_canon].
Qed.
Theorem C180_rows_refuted : ~ C180_statement.
Proof.
  intros H. destruct parts180 as (HF & HG & HC & HS). destruct (H c180 1 F180 G180 1000 3 A180 2 lab180 (qf 3 2) _ HF HG HC HS ltac:(discriminate) (or_introl eq_refl)) as [_ H2].
  specialize (H2 1 ltac:(lia)). vm_compute in H2. discriminate H2.
Qed.
Print Assumptions C180_rows_refuted.
(** The entries smaller than the largest entry over the ratio are deleted, and no others.  Normalising
    multiplies what is left of a row by one number and makes its sum 1, and leaves a row alone in which nothing is
    left.  When the exact matrix is a transition matrix of at most [ratio] nodes, something is left in each row,
    and the result is a transition matrix. *)
Theorem C180_threshold_partial : forall c K F G big n A n_comp lab r f, computes_poly c K F -> applies_poly c K G -> closed_labels n A n_comp lab ->
  (0 < r)%num -> (forall i j, i < n -> j < n -> (0 <= poly n c K A i j)%num) -> by_parts F G n A n_comp lab big r f ->
  (forall normalize, csr_ok n (f normalize)) /\
  trimmed n (poly n c K A) r (value (f false)) /\
  (forall i, i < n -> sumN n (value (f false) i) <> 0%num -> sumN n (value (f true) i) = 1%num) /\
  (forall i, i < n -> exists x, (0 < x)%num /\ forall j, j < n -> value (f true) i j = (x * value (f false) i j)%num) /\
  (stochastic n (poly n c K A) -> (qn n <= r)%num -> stochastic n (value (f true)) /\
     forall i, i < n -> exists x, (1 <= x)%num /\ forall j, j < n -> value (f true) i j = (x * value (f false) i j)%num).
Proof.
  intros c K F G big n A nc lab r f HF HG Hc Hr Hpos Hf. destruct (by_parts_trimmed c K F G HF HG n A nc lab Hc big r f Hf Hr Hpos) as (H1 & H2 & E).
  destruct (C24_row_normalise n (f false) (fun _ => 1%num) H1 ltac:(discriminate)) as (N1 & N2 & N3 & N4 & _). rewrite <- E in N1, N2, N3, N4.
  split; [intros [|]; assumption|]. split; [exact H2|]. split; [exact N2|].
  assert (HD : forall i j, i < n -> j < n -> (0 <= value (f false) i j)%num).
  { intros i j Hi Hj. destruct (H2 i j Hi Hj) as [K1 K2]. destruct (Qclt_le_dec (value (f false) i j) 0%num) as [Hlt|Hle]; [|exact Hle]. exfalso. assert (HN : ~ large_enough n (poly n c K A) r i j).
    { intros HL. rewrite (K1 HL) in Hlt. specialize (Hpos i j Hi Hj). revert Hlt. now apply Qcle_not_lt. }
    rewrite (K2 HN) in Hlt. discriminate Hlt. }
  assert (HP : forall i, i < n -> sumN n (value (f false) i) <> 0%num -> forall j, j < n -> value (f true) i j = (/ sumN n (value (f false) i) * value (f false) i j)%num).
  { intros i Hi Hs j Hj. pose proof (N4 i j Hi Hj Hs) as H. rewrite Qcmult_1_r in H. rewrite <- H. field. exact Hs. }
  split.
  - intros i Hi. destruct (Qc_eq_dec (sumN n (value (f false) i)) 0%num) as [Hz|Hs].
    + exists 1%num. split; [reflexivity|]. intros j Hj. rewrite Qcmult_1_l. unfold value. now rewrite (N3 i Hi Hz).
    + exists (/ sumN n (value (f false) i))%num. split; [|now apply HP]. apply qinv_pos. assert (H0 : (0 <= sumN n (value (f false) i))%num) by (apply sumN_nonneg; intros j Hj; now apply HD).
      destruct (Qcle_lt_or_eq _ _ H0) as [H|H]; [exact H|]. now rewrite <- H in Hs.
  - intros HS Hn. pose proof (fun i Hi => trimmed_row n _ r _ i HS Hn H2 Hi) as HR. assert (HS0 : forall i, i < n -> sumN n (value (f false) i) <> 0%num) by (intros i Hi; apply qneq_pos, HR, Hi).
    assert (HX : forall i, i < n -> (1 <= / sumN n (value (f false) i))%num).
    { intros i Hi. destruct (HR i Hi) as [[Hp Hq] _]. pose proof (qinv_pos _ Hp) as Hv. rewrite <- (Qcmult_inv_r (sumN n (value (f false) i))) by (now apply HS0). rewrite <- (Qcmult_1_l (/ sumN n (value (f false) i))%num) at 2. apply Qcmult_le_compat_r; [exact Hq|now apply Qclt_le_weak]. }
    split.
    + split; [|intros i Hi; apply N2; [exact Hi|now apply HS0]]. intros i j Hi Hj. rewrite (HP i Hi (HS0 i Hi) j Hj). apply qmult_nonneg; [|now apply HD]. apply Qcle_trans with 1%num; [discriminate|now apply HX].
    + intros i Hi. exists (/ sumN n (value (f false) i))%num. split; [now apply HX|]. apply HP; [exact Hi|now apply HS0].
Qed.
Print Assumptions C180_threshold_partial.
(** three nodes with a ratio of 3: a self-loop of 2/3, and an entry 1/6 that is trimmed *)
Definition A180b : mat := fun i j => match i, j with 0, 0 => qf (-1) 6 | 0, 1 => qf 1 6 | 1, 0 => qf 1 2 | 1, 1 => qf (-1) 2 | _, _ => 0%num end.
Definition lab180b (i : nat) : nat := match i with 2 => 1 | _ => 0 end.
Example C180_applies : computes_poly c180 1 F180 /\ applies_poly c180 1 G180 /\ closed_labels 3 A180b 2 lab180b /\ stochastic 3 (poly 3 c180 1 A180b) /\ (qn 3 <= qz 3)%num /\
  c_data (subspace_expm F180 3 A180b 2 lab180b (Some (qz 3)) false) = [qf 5 6; qf 1 2; qf 1 2; qz 1] /\
  c_data (subspace_expm F180 3 A180b 2 lab180b (Some (qz 3)) true) = [qz 1; qf 1 2; qf 1 2; qz 1] /\
  c_data (subspace_expm_parallel F180 G180 2 3 A180b 2 lab180b (Some (qz 3)) true) = [qz 1; qf 1 2; qf 1 2; qz 1].
Proof.
  split; [apply parts180|]. split; [apply parts180|]. split.
  - split; [intros [|[|[|i]]] _; cbn; lia|]. intros [|[|[|i]]] [|[|[|j]]] Hi Hj Hz; try lia; try reflexivity; exfalso; now apply Hz.
  - split; [split; [intros [|[|[|i]]] [|[|[|j]]] Hi Hj; try lia; discriminate|intros [|[|[|i]]] Hi; try lia; vm_compute; now apply Qc_is_canon]|].
    split; [discriminate|]. split; [compute_all|]. split; compute_all.
Qed.

(** * C181: sparse_lapl_expm with a threshold *)
(** nodes with an entry in their row or column of the Laplacian *)
Definition in_use (n : nat) (L : mat) (i : nat) : Prop := exists j, j < n /\ (L i j <> 0%num \/ L j i <> 0%num).
(** entries between nodes in use that are smaller than the largest of these entries over the ratio are deleted *)
Definition stays (n : nat) (L E : mat) (r : num) (i j : nat) : Prop :=
  in_use n L i -> in_use n L j -> forall k l, k < n -> l < n -> in_use n L k -> in_use n L l -> (E k l / r <= E i j)%num.
Definition C181_statement : Prop := forall c K F G comps n L fact nproc r, computes_poly c K F -> applies_poly c K G -> c 0 = 1%num ->
  (forall m A, component_labels m A (fst (comps m A)) (snd (comps m A))) -> (forall i, i < n -> sumN n (L i) = 0%num) -> (0 < r)%num ->
  (forall i j, i < n -> j < n -> (0 <= poly n c K (mscal (- fact)%num L) i j)%num) ->
  exists f, represents (sparse_lapl_expm F G 1000 comps n L fact false nproc (Some r) false) n f /\
    forall i j, i < n -> j < n -> (stays n L (poly n c K (mscal (- fact)%num L)) r i j -> f i j = poly n c K (mscal (- fact)%num L) i j) /\
      (~ stays n L (poly n c K (mscal (- fact)%num L)) r i j -> f i j = 0%num).

Lemma used_in_use n L i : i < n -> used n L i = true <-> in_use n L i.
Proof.
  intros Hi. split.
  - intros H. unfold used in H. apply orb_true_iff in H. destruct H as [H|H]; apply existsb_exists in H; destruct H as (j & Hj & Hz); apply in_seq in Hj; exists j; (split; [lia|]); [left|right]; intros E; rewrite E in Hz; discriminate Hz.
  - intros (j & Hj & H). destruct (used n L i) eqn:E; [reflexivity|]. destruct (used_false n L i Hi E j Hj) as [E1 E2]. tauto.
Qed.
Lemma rep_small n L M : csr_ok (length (used_rowcols n L)) M ->
  represents (ssm_init n M (used_rowcols n L) 1%num) n (fun i j => match pos i (used_rowcols n L), pos j (used_rowcols n L) with Some a, Some b => value M a b | _, _ => if i =? j then 1%num else 0%num end).
Proof.
  intros HM. assert (Hb : forall i, In i (used_rowcols n L) -> i < n) by (intros i Hi; now apply used_In in Hi).
  destruct (ssm_init_ok n M _ 1%num HM (used_sorted n L) Hb) as [E Hok]. eapply represents_rep; [exact E|exact Hok|reflexivity|].
  intros i j Hi Hj. unfold rep. cbn [s_nz s_small s_diag]. destruct (pos i (used_rowcols n L)), (pos j (used_rowcols n L)); reflexivity.
Qed.
Lemma sub_used n L f c K a b : a < length (used_rowcols n L) -> b < length (used_rowcols n L) ->
  poly (length (used_rowcols n L)) c K (mscal f (sub (used_rowcols n L) L)) a b = poly n c K (mscal f L) (nth a (used_rowcols n L) 0) (nth b (used_rowcols n L) 0).
Proof.
  intros Ha Hb. assert (Hn : forall i, In i (used_rowcols n L) -> i < n) by (intros i Hi; now apply used_In in Hi). change (mscal f (sub (used_rowcols n L) L)) with (sub (used_rowcols n L) (mscal f L)). apply sub_poly; try assumption.
  - apply sorted_NoDup, used_sorted.
  - intros x y Hy Hx Hz. apply used_In. split; [exact Hx|]. apply (used_true n L x y); [now apply Hn|]. intros E0. apply Hz. unfold mscal. rewrite E0. ring.
Qed.
(** Dense exponentials, fewer nodes in use than the limit (1000 in the code) and connected nodes: the
    threshold is not used. *)
Theorem C181_ignored : forall c K F G big comps n L fact dense nproc thresh_ratio normalize, computes_poly c K F -> applies_poly c K G -> c 0 = 1%num ->
  (forall m A, component_labels m A (fst (comps m A)) (snd (comps m A))) -> (forall i, i < n -> sumN n (L i) = 0%num) ->
  let nz := used_rowcols n L in dense = true \/ length nz < big \/ fst (comps (length nz) (sub nz L)) <= 1 ->
  represents (sparse_lapl_expm F G big comps n L fact dense nproc thresh_ratio normalize) n (poly n c K (mscal (- fact)%num L)).
Proof.
  intros c K F G big comps n L fact dense nproc thresh norm HF HG H0 Hcomp Hz nz Hs.
  assert (E : sparse_lapl_expm F G big comps n L fact dense nproc thresh norm = sparse_lapl_expm F G big comps n L fact dense nproc None norm).
  { unfold sparse_lapl_expm. destruct (has_entries n L); [|reflexivity]. fold nz. cbn zeta. destruct (comps (length nz) (sub nz L)) as [nc lab]. cbn [fst] in Hs. destruct dense; [reflexivity|].
    assert (EB : (big <=? length nz) && (1 <? nc) = false); [|now rewrite EB]. apply andb_false_iff. rewrite Nat.leb_gt, Nat.ltb_ge. destruct Hs as [Hs|Hs]; [discriminate Hs|exact Hs]. }
  rewrite E. now apply sparse_lapl_expm_poly.
Qed.
Print Assumptions C181_ignored.
(** Two nodes in use: an entry 1/6 stays although the largest entry is 5/6 and the ratio 3. *)
Definition L181 : mat := fun i j => match i, j with 0, 0 => qf 1 6 | 0, 1 => qf (-1) 6 | 1, 0 => qf (-1) 2 | 1, 1 => qf 1 2 | _, _ => 0%num end.
Theorem C181_small_refuted : ~ C181_statement.
Proof.
  intros H. set (E := poly 2 c180 1 (mscal (- (1))%num L181)).
  assert (HZ : forall i, i < 2 -> sumN 2 (L181 i) = 0%num) by (intros [|[|i]] Hi; try lia; vm_compute; now apply Qc_is_canon).
  assert (HP : forall i j, i < 2 -> j < 2 -> (0 <= E i j)%num) by (intros [|[|i]] [|[|j]] Hi Hj; try lia; discriminate).
  destruct (H c180 1 F180 G180 joined 2 L181 1%num 1 (qz 3) (proj1 parts180) (proj1 (proj2 parts180)) eq_refl joined_ok HZ eq_refl HP) as (f & Hf & Hk).
  destruct (Hk 0 1 ltac:(lia) ltac:(lia)) as [_ H2]. assert (E0 : f 0 1 = 0%num).
  { apply H2. intros Hst. assert (U : forall i, i < 2 -> in_use 2 L181 i) by (intros [|[|i]] Hi; try lia; [exists 0|exists 1]; (split; [lia|]); left; discriminate).
    specialize (Hst (U 0 ltac:(lia)) (U 1 ltac:(lia)) 0 0 ltac:(lia) ltac:(lia) (U 0 ltac:(lia)) (U 0 ltac:(lia))). vm_compute in Hst. now apply Hst. }
  destruct Hf as (C & EC & _ & Hsz & (M & EM & _ & HM)). rewrite Hsz in HM. specialize (HM 0 1 ltac:(lia) ltac:(lia)). rewrite E0 in HM. vm_compute in EC. injection EC as <-. vm_compute in EM. injection EM as <-. vm_compute in HM. discriminate HM.
Qed.
Print Assumptions C181_small_refuted.
(** With at least [big] nodes in use, in more than one component: *)
Theorem C181_large_partial : forall c K F G big comps n L fact nproc r, computes_poly c K F -> applies_poly c K G -> c 0 = 1%num ->
  (forall m A, component_labels m A (fst (comps m A)) (snd (comps m A))) -> (0 < r)%num ->
  (forall i j, i < n -> j < n -> (0 <= poly n c K (mscal (- fact)%num L) i j)%num) ->
  let nz := used_rowcols n L in big <= length nz -> 1 < fst (comps (length nz) (sub nz L)) ->
  exists f, represents (sparse_lapl_expm F G big comps n L fact false nproc (Some r) false) n f /\
    forall i j, i < n -> j < n -> (stays n L (poly n c K (mscal (- fact)%num L)) r i j -> f i j = poly n c K (mscal (- fact)%num L) i j) /\
      (~ stays n L (poly n c K (mscal (- fact)%num L)) r i j -> f i j = 0%num).
Proof.
  intros c K F G big comps n L fact nproc r HF HG H0 Hcomp Hr Hpos nz Hbig Hnc. set (E := poly n c K (mscal (- fact)%num L)) in *. set (m := length nz) in *. set (A := mscal (- fact)%num (sub nz L)).
  assert (HE : forall a b, a < m -> b < m -> poly m c K A a b = E (nth a nz 0) (nth b nz 0)) by (intros a b Ha Hb; now apply sub_used).
  assert (Hlt : forall a, a < m -> nth a nz 0 < n /\ in_use n L (nth a nz 0)).
  { intros a Ha. assert (HI : In (nth a nz 0) nz) by now apply nth_In. apply used_In in HI. split; [apply HI|]. now apply used_in_use. }
  assert (Hin : forall i, i < n -> in_use n L i -> exists a, pos i nz = Some a /\ a < m /\ nth a nz 0 = i).
  { intros i Hi Hu. assert (HI : In i nz) by (apply used_In; split; [exact Hi|now apply used_in_use]). apply pos_In in HI. destruct HI as (a & Ea). exists a. split; [exact Ea|]. split; [exact (pos_lt _ _ _ Ea)|exact (pos_nth _ _ _ 0 Ea)]. }
  assert (HT : exists M, sparse_lapl_expm F G big comps n L fact false nproc (Some r) false = ssm_init n M nz 1%num /\ csr_ok m M /\ trimmed m (poly m c K A) r (value M)).
  { pose proof (Hcomp m (sub nz L)) as Hcm. unfold sparse_lapl_expm. destruct (has_entries n L) eqn:EH.
    - fold nz. fold m. destruct (comps m (sub nz L)) as [nc lab]. cbn [fst snd] in Hnc, Hcm. apply (components_closed _ _ _ _ (- fact)%num) in Hcm. fold A in Hcm. fold A.
      apply Nat.leb_le in Hbig. apply Nat.ltb_lt in Hnc. rewrite Hbig, Hnc. cbn [andb].
      assert (HPA : forall i j, i < m -> j < m -> (0 <= poly m c K A i j)%num) by (intros i j Hi Hj; rewrite HE by assumption; apply Hpos; now apply Hlt).
      destruct (nproc =? 1); (eexists; split; [reflexivity|]).
      + destruct (by_parts_trimmed c K F G HF HG m A nc lab Hcm big r _ (or_introl eq_refl) Hr HPA) as (K1 & K2 & _). auto.
      + destruct (by_parts_trimmed c K F G HF HG m A nc lab Hcm big r _ (or_intror eq_refl) Hr HPA) as (K1 & K2 & _). auto.
    - exists (mkCsr [] [] [0]). unfold m, nz. rewrite (used_nil n L EH). split; [reflexivity|]. split; [apply (csr_ok_of_rows 0 []); [reflexivity|intros r0 e []]|]. intros i j Hi. inversion Hi. }
  destruct HT as (M & -> & HM & HT). eexists. split; [now apply rep_small|]. intros i j Hi Hj. cbn beta. fold nz.
  assert (Hout : forall x, x < n -> pos x nz = None -> ~ in_use n L x) by (intros x Hx Hp Hu; destruct (Hin x Hx Hu) as (a & Ea & _); congruence).
  assert (Hzero : forall x, ~ in_use n L x -> forall l, l < n -> mscal (- fact)%num L x l = 0%num /\ mscal (- fact)%num L l x = 0%num).
  { intros x Hx l Hl. assert (HL : L x l = 0%num /\ L l x = 0%num). { split; [destruct (Qc_eq_dec (L x l) 0%num) as [|Hne]; [assumption|]|destruct (Qc_eq_dec (L l x) 0%num) as [|Hne]; [assumption|]]; exfalso; apply Hx; exists l; auto. } destruct HL as [E1 E2]. unfold mscal. rewrite E1, E2. split; ring. }
  destruct (pos i nz) as [a|] eqn:Ea.
  - destruct (pos j nz) as [b|] eqn:Eb.
    + pose proof (pos_lt _ _ _ Ea) as Ha. pose proof (pos_lt _ _ _ Eb) as Hb. fold m in Ha, Hb. pose proof (HE a b Ha Hb) as Hab. rewrite (pos_nth _ _ _ 0 Ea), (pos_nth _ _ _ 0 Eb) in Hab.
      assert (HK : large_enough m (poly m c K A) r a b <-> stays n L E r i j).
      { split.
        - intros HL _ _ k l Hk Hl Uk Ul. destruct (Hin k Hk Uk) as (a' & _ & Ha' & <-). destruct (Hin l Hl Ul) as (b' & _ & Hb' & <-). rewrite <- Hab, <- HE by assumption. now apply HL.
        - intros HL k l Hk Hl. rewrite Hab, HE by assumption. destruct (Hlt a Ha) as [_ U1]. destruct (Hlt b Hb) as [_ U2]. rewrite (pos_nth _ _ _ 0 Ea) in U1. rewrite (pos_nth _ _ _ 0 Eb) in U2. apply (HL U1 U2); now apply Hlt. }
      rewrite <- HK, <- Hab. now apply HT.
    + assert (Hs : stays n L E r i j) by (intros _ U; now apply (Hout j Hj Eb) in U). split; [|tauto]. intros _. symmetry. apply poly_outside; [exact H0|exact Hi|exact Hj|]. right. intros l Hl. now apply (Hzero j (Hout j Hj Eb)).
  - assert (Hs : stays n L E r i j) by (intros U; now apply (Hout i Hi Ea) in U). split; [|tauto]. intros _. symmetry. apply poly_outside; [exact H0|exact Hi|exact Hj|]. left. intros l Hl. now apply (Hzero i (Hout i Hi Ea)).
Qed.
Print Assumptions C181_large_partial.
(** five nodes, one of them not in use; the limit is 4 *)
Definition L181b : mat := fun i j => match i, j with 0, 0 => qf 1 6 | 0, 1 => qf (-1) 6 | 1, 0 => qf (-1) 2 | 1, 1 => qf 1 2 | 3, 3 | 4, 4 => qf 1 2 | 3, 4 | 4, 3 => qf (-1) 2 | _, _ => 0%num end.
Example C181_applies : (forall m A, component_labels m A (fst (joined m A)) (snd (joined m A))) /\ (forall i, i < 5 -> sumN 5 (L181b i) = 0%num) /\
  (forall i j, i < 5 -> j < 5 -> (0 <= poly 5 c180 1 (mscal (- (1))%num L181b) i j)%num) /\ 4 <= length (used_rowcols 5 L181b) /\ 1 < fst (joined 4 (sub (used_rowcols 5 L181b) L181b)) /\
  match sparse_lapl_expm F180 G180 4 joined 5 L181b 1%num false 1 (Some (qz 3)) false with Some C => c_data (s_small C) = [qf 5 6; qf 1 2; qf 1 2; qf 1 2; qf 1 2; qf 1 2; qf 1 2] /\ s_nz C = [0; 1; 3; 4] | None => False end.
Proof.
  split; [exact joined_ok|]. split; [intros [|[|[|[|[|i]]]]] Hi; try lia; vm_compute; now apply Qc_is_canon|].
  split; [intros [|[|[|[|[|i]]]]] [|[|[|[|[|j]]]]] Hi Hj; try lia; discriminate|]. split; [vm_compute; lia|]. split; [vm_compute; lia|]. vm_compute. auto.
Qed.
