(** Lemmas about the aggregation, the zero test and the constructors of SparseAutocovMat. *)
From Verif Require Import Base PartitionModel PartitionSpec PartitionProofs SparseModel SparseSpec SparseProofs SparseOpsProofs SparseConvProofs
  AutocovModel AutocovSpec AutocovProofs.
Local Open Scope bool_scope.

(** ** COO to CSR *)
Definition at_pos (l : list triple) (r c : nat) : num :=
  sumL (fun t => if (fst (fst t) =? r) && (snd (fst t) =? c) then snd t else 0%num) l.
Lemma scattered_keyed (g : nat -> num) l c : NoDup l ->
  scattered (map (fun x => (x, g x)) l) c = if memb c l then g c else 0%num.
Proof.
  intros Hn. unfold scattered. rewrite sumL_map. cbn [fst snd].
  destruct (memb_spec c l) as [H|H]; [now apply sumL_delta|now apply sumL_delta_notin].
Qed.
Lemma coo_row_scattered l r c : scattered (coo_row l r) c = at_pos l r c.
Proof.
  unfold coo_row. cbv zeta. set (mine := filter (fun t => fst (fst t) =? r) l).
  rewrite scattered_keyed by (apply sorted_NoDup, unique_sorted).
  assert (E : sumL (fun t => if snd (fst t) =? c then snd t else 0%num) mine = at_pos l r c).
  { unfold mine, at_pos. rewrite sumL_filter. apply sumL_ext. intros t _.
    destruct (fst (fst t) =? r), (snd (fst t) =? c); reflexivity. }
  destruct (memb_spec c (unique (map (fun t => snd (fst t)) mine))) as [H|H]; [exact E|].
  rewrite <- E. symmetry. apply sumL_zero. intros t Ht. destruct (Nat.eqb_spec (snd (fst t)) c) as [E'|]; [|reflexivity].
  exfalso. apply H. rewrite unique_In, <- E'. now apply (in_map (fun t => snd (fst t))).
Qed.
Lemma coo_spec n l : (forall t, In t l -> snd (fst t) < n) ->
  csr_ok n (coo_to_csr n l) /\
  (forall r, r < n -> NoDup (map fst (row_entries (coo_to_csr n l) r))) /\
  (forall r c, r < n -> value (coo_to_csr n l) r c = at_pos l r c).
Proof.
  intros Hb. unfold coo_to_csr.
  destruct (csr_of_fun n (coo_row l)) as [H1 H2].
  { intros r e _ He. unfold coo_row in He. apply in_map_iff in He. destruct He as (c & <- & Hc). cbn [fst].
    rewrite unique_In, in_map_iff in Hc. destruct Hc as (t & <- & Ht). apply filter_In in Ht. now apply Hb. }
  split; [exact H1|]. split.
  - intros r Hr. rewrite H2 by exact Hr. unfold coo_row. rewrite map_map. cbn [fst]. rewrite map_id.
    apply sorted_NoDup, unique_sorted.
  - intros r c Hr. rewrite value_scattered, H2 by exact Hr. apply coo_row_scattered.
Qed.
(** outside its rows a CSR built row by row has no element *)
Lemma row_entries_oob M i : length (c_ptr M) <= S i -> row_entries M i = [].
Proof.
  intros H. unfold row_entries, row_range. rewrite (nth_overflow (c_ptr M) 0 H). reflexivity.
Qed.
Lemma no_repetition_ok n M : csr_ok n M -> (forall r, r < n -> NoDup (map fst (row_entries M r))) -> no_repetition M.
Proof.
  intros HM H r. destruct (lt_dec r n) as [Hr|Hr]; [auto|].
  rewrite row_entries_oob; [constructor|]. rewrite (proj1 HM). lia.
Qed.

(** ** The two algorithms *)
Lemma at_pos_flat {A} (g : A -> list triple) l r c : at_pos (flat_map g l) r c = sumL (fun a => at_pos (g a) r c) l.
Proof. apply sumL_flat_map. Qed.
Lemma v1_at n M cl a b : partitions n cl -> a < length cl -> b < length cl ->
  (0 <= sum_over (value M) (nth a cl []) (nth b cl []))%num ->
  at_pos (aggregate_v1 M cl) a b = sum_over (value M) (nth a cl []) (nth b cl []).
Proof.
  intros [Hnd _] Ha Hb Hpos. unfold aggregate_v1. rewrite at_pos_flat.
  set (f := fun r c => sum_over (value M) (nth r cl []) (nth c cl [])) in *.
  assert (Es : forall r c, submat_sum M (nth r cl []) (nth c cl []) = f r c).
  { intros r c. apply submat_sum_spec. destruct (lt_dec c (length cl)) as [Hc|Hc].
    - rewrite Forall_forall in Hnd. apply Hnd. now apply nth_In.
    - rewrite nth_overflow by lia. constructor. }
  transitivity (sumL (fun r => if r =? a then f r b else 0%num) (seq 0 (length cl))).
  - apply sumL_ext. intros r _. rewrite at_pos_flat.
    destruct (Nat.eqb_spec r a) as [->|Hra].
    + transitivity (sumL (fun c => if c =? b then f a c else 0%num) (seq 0 (length cl))).
      * apply sumL_ext. intros c _. cbv zeta. rewrite Es.
        destruct (qltb_spec 0%num (f a c)) as [Hp|Hp]; unfold at_pos; cbn [sumL fold_right fst snd].
        -- rewrite Nat.eqb_refl. destruct (c =? b); cbn [andb]; ring.
        -- destruct (Nat.eqb_spec c b) as [->|]; [|reflexivity]. unfold f in Hp, Hpos |- *. revert Hp Hpos.
           generalize (sum_over (value M) (nth a cl []) (nth b cl [])). intros x H1 H2. qlra.
      * now apply (sumN_delta (length cl) b (f a)).
    + apply sumL_zero. intros c _. cbv zeta. destruct (qltb 0%num _); [|reflexivity].
      unfold at_pos. cbn [sumL fold_right fst snd]. destruct (Nat.eqb_spec r a); [contradiction|]. cbn [andb]. ring.
  - apply (sumN_delta (length cl) a (fun r => f r b) Ha).
Qed.
Lemma a_to_b_notin cl x : forall kb acc, (forall i, ~ in_cluster cl i x) -> a_to_b kb cl x acc = acc.
Proof.
  induction cl as [|c cl IH]; intros kb acc H; [reflexivity|]. cbn [a_to_b].
  destruct (memb_spec x c) as [Hx|Hx]; [exfalso; apply (H 0); exists c; auto|].
  apply IH. intros i (d & Hd & Hx'). apply (H (S i)). exists d. auto.
Qed.
Lemma a_to_b_spec cl x : forall kb acc i, (forall i j, in_cluster cl i x -> in_cluster cl j x -> i = j) ->
  in_cluster cl i x -> a_to_b kb cl x acc = kb + i.
Proof.
  induction cl as [|c cl IH]; intros kb acc i Hd Hi; [destruct Hi as (d & Hd' & _); destruct i; discriminate|].
  cbn [a_to_b]. destruct i as [|i].
  - destruct Hi as (d & E & Hx). injection E as <-. destruct (memb_spec x c); [|contradiction].
    rewrite a_to_b_notin; [lia|]. intros j (e & He & Hxe).
    assert (S j = 0); [|discriminate]. apply Hd; [exists e; auto|exists c; auto].
  - rewrite (IH (S kb) _ i); [lia| |exact Hi].
    intros j j' (e & He) (e' & He'). assert (S j = S j') by (apply Hd; [exists e|exists e']; auto). lia.
Qed.
Lemma a_to_b_iff n cl x i : partitions n cl -> x < n -> i < length cl ->
  (a_to_b 0 cl x 0 =? i) = memb x (nth i cl []).
Proof.
  intros (_ & Hd & Hc) Hx Hi. destruct (proj1 (Hc x) Hx) as [k Hk].
  rewrite (a_to_b_spec cl x 0 0 k (fun i j => Hd i j x) Hk). rewrite Nat.add_0_l.
  destruct (memb_spec x (nth i cl [])) as [H|H].
  - apply Nat.eqb_eq. apply (Hd _ _ x Hk). exists (nth i cl []). split; [now apply nth_error_nth'|exact H].
  - apply Nat.eqb_neq. intros ->. apply H. destruct Hk as (c & E & Hin). now rewrite (nth_error_nth _ _ _ E).
Qed.
Lemma a_to_b_lt n cl x : partitions n cl -> x < n -> a_to_b 0 cl x 0 < length cl.
Proof.
  intros (_ & Hd & Hc) Hx. destruct (proj1 (Hc x) Hx) as [k Hk].
  rewrite (a_to_b_spec cl x 0 0 k (fun i j => Hd i j x) Hk).
  destruct Hk as (c & E & _). assert (k < length cl) by (apply nth_error_Some; congruence). lia.
Qed.
Lemma cluster_props n cl a : partitions n cl -> NoDup (nth a cl []) /\ forall x, In x (nth a cl []) -> x < n.
Proof.
  intros (Hnd & _ & Hc). destruct (lt_dec a (length cl)) as [Ha|Ha].
  - split; [rewrite Forall_forall in Hnd; apply Hnd; now apply nth_In|]. intros x Hx. apply Hc.
    exists a, (nth a cl []). split; [now apply nth_error_nth'|exact Hx].
  - rewrite nth_overflow by lia. split; [constructor|intros x []].
Qed.
Lemma v2_at n M cl a b : csr_ok n M -> partitions n cl -> a < length cl -> b < length cl ->
  at_pos (aggregate_v2 M cl) a b = sum_over (value M) (nth a cl []) (nth b cl []).
Proof.
  intros HM Hp Ha Hb. unfold aggregate_v2. rewrite (csr_size_ok n M HM), at_pos_flat.
  destruct (cluster_props n cl a Hp) as [Na Ra]. destruct (cluster_props n cl b Hp) as [Nb Rb].
  unfold sum_over. rewrite <- (sumL_perm _ _ _ (sub_seq_perm (nth a cl []) n Na Ra)), sumL_filter.
  apply sumL_ext. intros row Hrow. apply seq_In_iff in Hrow. unfold at_pos. rewrite sumL_map. cbn [fst snd].
  rewrite (a_to_b_iff n) by assumption. destruct (memb row (nth a cl [])).
  - rewrite <- row_over by exact Nb. apply sumL_ext. intros e He. cbn [andb].
    rewrite (a_to_b_iff n); [reflexivity|assumption|now apply (row_entries_col n M row)|assumption].
  - now apply sumL_zero.
Qed.
Lemma v1_cols M cl t : In t (aggregate_v1 M cl) -> snd (fst t) < length cl.
Proof.
  unfold aggregate_v1. rewrite in_flat_map. intros (r & _ & H). apply in_flat_map in H. destruct H as (c & Hc & H).
  apply seq_In_iff in Hc. cbv zeta in H. destruct (qltb 0%num _); [|destruct H]. destruct H as [<-|[]]. exact Hc.
Qed.
Lemma v2_cols n M cl t : csr_ok n M -> partitions n cl -> In t (aggregate_v2 M cl) -> snd (fst t) < length cl.
Proof.
  intros HM Hp. unfold aggregate_v2. rewrite (csr_size_ok n M HM), in_flat_map. intros (r & Hr & H).
  apply seq_In_iff in Hr. apply in_map_iff in H. destruct H as (e & <- & He). cbn [fst snd].
  apply (a_to_b_lt n cl (fst e) Hp). now apply (row_entries_col n M r).
Qed.

(** ** Aggregated probabilities *)
Lemma sum_all_clusters n cl (f : nat -> num) : partitions n cl ->
  sumL (fun idx => sumL f idx) cl = sumN n f.
Proof.
  intros Hp. rewrite <- sumL_concat. apply sumL_perm. now apply partitions_perm.
Qed.
Lemma sumL_list_nth (v : list num) n : length v = n -> sumL (fun x => x) v = sumN n (fun i => nth i v 0%num).
Proof. intros <-. apply (sumL_nth v (fun x => x) 0%num). Qed.
Lemma normalised_one v : sumL (fun x => x) v = 1%num -> normalised v = v.
Proof.
  intros H. unfold normalised. rewrite H. rewrite <- (map_id v) at 2. apply map_ext. intros x.
  field. discriminate.
Qed.
Lemma agg_probs n cl v : partitions n cl -> length v = n -> sumL (fun x => x) v = 1%num ->
  normalised (map (fun idx => sumL (fun i => nth i v 0%num) idx) cl)
  = map (fun idx => sumL (fun i => nth i v 0%num) idx) cl.
Proof.
  intros Hp Hl H1. apply normalised_one. rewrite sumL_map, (sum_all_clusters n cl _ Hp).
  now rewrite <- (sumL_list_nth v n Hl).
Qed.
Lemma uniform_sum n : 0 < n -> sumL (fun x => x) (uniform n) = 1%num.
Proof.
  intros Hn. unfold uniform. assert (E : forall m c, sumL (fun x : num => x) (repeat c m) = (qn m * c)%num).
  { induction m as [|m IH]; intros c; [rewrite qn_0; cbn; ring|]. cbn [repeat]. rewrite sumL_cons, IH, qn_S. ring. }
  rewrite E. assert (qn n <> 0%num) by (apply qneq_pos; rewrite <- qn_0; now apply qn_lt). field. assumption.
Qed.
Lemma uniform_nth n i : i < n -> nth i (uniform n) 0%num = (1 / qn n)%num.
Proof.
  intros Hi. unfold uniform. rewrite (nth_indep _ 0%num (1 / qn n)%num) by (now rewrite repeat_length).
  apply nth_repeat.
Qed.

Lemma sum_over_prod (f g : nat -> num) a b :
  sum_over (fun i j => (f i * g j)%num) a b = (sumL f a * sumL g b)%num.
Proof. unfold sum_over. rewrite (sumL_prod f g). reflexivity. Qed.

(** the vectors aggregated for scalars *)
Definition vectors (n : nat) (p : probs) : list num * list num :=
  match p with PScal _ _ => (uniform n, uniform n) | PVec p1 p2 => (p1, p2) end.
Lemma vectors_p0 n p i j : normalised_probs n p -> i < n -> j < n ->
  p0_at p i j = (nth i (fst (vectors n p)) 0 * nth j (snd (vectors n p)) 0)%num.
Proof.
  intros Hp Hi Hj. destruct p as [p1 p2|p1 p2]; [|reflexivity]. destruct Hp as [-> ->].
  cbn [vectors fst snd p0_at]. now rewrite !uniform_nth.
Qed.

(** ** Stored elements stay positive *)
Lemma coo_positive n l : (forall t, In t l -> snd (fst t) < n) -> (forall t, In t l -> (0 < snd t)%num) ->
  positive_entries (coo_to_csr n l).
Proof.
  intros Hb Hp r e He. destruct (lt_dec r n) as [Hr|Hr].
  2:{ rewrite row_entries_oob in He; [destruct He|]. rewrite (proj1 (proj1 (coo_spec n l Hb))). lia. }
  unfold coo_to_csr in He. rewrite row_entries_of_rows in He by (now rewrite map_length, seq_length).
  rewrite (nth_map_dep _ _ r 0) in He by (now rewrite seq_length). rewrite seq_nth in He by exact Hr. cbn [Nat.add] in He.
  unfold coo_row in He. apply in_map_iff in He. destruct He as (c & <- & Hc). cbn [snd].
  rewrite unique_In, in_map_iff in Hc. destruct Hc as (t & Et & Ht).
  assert (Hall : forall t', In t' (filter (fun t => fst (fst t) =? r) l) -> (0 < snd t')%num).
  { intros t' Ht'. apply filter_In in Ht'. now apply Hp. }
  apply (Qclt_le_trans _ (snd t)); [now apply Hall|].
  replace (snd t) with (if snd (fst t) =? c then snd t else 0%num) by (rewrite Et, Nat.eqb_refl; reflexivity).
  apply (sumL_nonneg_term (fun t => if snd (fst t) =? c then snd t else 0%num)); [|exact Ht].
  intros t' Ht'. destruct (_ =? c); [now apply Qclt_le_weak, Hall|apply Qcle_refl].
Qed.
Lemma v1_positive M cl t : In t (aggregate_v1 M cl) -> (0 < snd t)%num.
Proof.
  unfold aggregate_v1. rewrite in_flat_map. intros (r & _ & H). apply in_flat_map in H. destruct H as (c & _ & H).
  cbv zeta in H. destruct (qltb_spec 0%num (submat_sum M (nth r cl []) (nth c cl []))) as [Hp|]; [|destruct H].
  destruct H as [<-|[]]. exact Hp.
Qed.
Lemma v2_positive M cl t : positive_entries M -> In t (aggregate_v2 M cl) -> (0 < snd t)%num.
Proof.
  unfold aggregate_v2. rewrite in_flat_map. intros Hp (r & _ & H). apply in_map_iff in H. destruct H as (e & <- & He).
  now apply (Hp r).
Qed.
Lemma sorted_entries n PT p sym A r e : built n PT p sym A -> r < n -> In e (row_entries (a_PT A) r) <-> In e (row_entries PT r).
Proof.
  intros HA Hr. destruct (built_inv n PT p sym A HA) as (-> & _). rewrite (proj2 (sort_indices_spec n PT (proj1 HA)) r Hr).
  split; apply Permutation_in; [|apply Permutation_sym]; apply sort_entries_perm.
Qed.
Lemma sorted_positive n PT p sym A : built n PT p sym A -> positive_entries PT -> positive_entries (a_PT A).
Proof.
  intros HA Hp r e He. destruct (lt_dec r n) as [Hr|Hr].
  - apply (Hp r). now apply (sorted_entries n PT p sym A r e HA Hr).
  - destruct (built_inv n PT p sym A HA) as (_ & _ & _ & _ & H1 & _).
    rewrite row_entries_oob in He; [destruct He|]. rewrite (proj1 H1). lia.
Qed.
Lemma ac_aggregate_spec n PT p sym A cl : 0 < n -> built n PT p sym A -> normalised_probs n p ->
  partitions n cl -> (forall i j, i < n -> j < n -> (0 <= value PT i j)%num) ->
  exists PT' p1' p2' B, ac_aggregate A cl = Some B /\
    built (length cl) PT' (PVec p1' p2') sym B /\ normalised_probs (length cl) (PVec p1' p2') /\
    no_repetition PT' /\
    (forall a b, a < length cl -> b < length cl -> value PT' a b = sum_over (value PT) (nth a cl []) (nth b cl [])) /\
    (forall a, a < length cl -> nth a p1' 0%num = sumL (fun i => nth i (fst (vectors n p)) 0%num) (nth a cl [])) /\
    (forall b, b < length cl -> nth b p2' 0%num = sumL (fun j => nth j (snd (vectors n p)) 0%num) (nth b cl [])) /\
    (forall a b, a < length cl -> b < length cl ->
       toarray B a b = sum_over (toarray A) (nth a cl []) (nth b cl [])) /\
    (positive_entries PT -> positive_entries PT').
Proof.
  intros Hn HA Hp Hcl Hpos.
  destruct (built_inv n PT p sym A HA) as (_ & Ep & Esym & Esz & HM & _ & Hv & _ & Hlen).
  set (v1 := fst (vectors n p)). set (v2 := snd (vectors n p)).
  assert (L1 : length v1 = n /\ sumL (fun x => x) v1 = 1%num).
  { unfold v1. destruct p as [p1 p2|p1 p2]; cbn [vectors fst].
    - split; [apply repeat_length|now apply uniform_sum].
    - split; [apply Hlen|apply Hp]. }
  assert (L2 : length v2 = n /\ sumL (fun x => x) v2 = 1%num).
  { unfold v2. destruct p as [p1 p2|p1 p2]; cbn [vectors snd].
    - split; [apply repeat_length|now apply uniform_sum].
    - split; [apply Hlen|apply Hp]. }
  set (triples := if length cl * length cl <? length (c_data (a_PT A))
                  then aggregate_v1 (a_PT A) cl else aggregate_v2 (a_PT A) cl).
  assert (Hcols : forall t, In t triples -> snd (fst t) < length cl).
  { intros t. unfold triples. destruct (_ <? _); [apply v1_cols|now apply (v2_cols n)]. }
  destruct (coo_spec (length cl) triples Hcols) as (C1 & C2 & C3).
  assert (Hso : forall a b, sum_over (value (a_PT A)) (nth a cl []) (nth b cl [])
                            = sum_over (value PT) (nth a cl []) (nth b cl [])).
  { intros a b. apply sum_over_ext. intros i j Hi Hj.
    apply Hv; [apply (cluster_props n cl a Hcl), Hi|apply (cluster_props n cl b Hcl), Hj]. }
  assert (C4 : forall a b, a < length cl -> b < length cl ->
     value (coo_to_csr (length cl) triples) a b = sum_over (value PT) (nth a cl []) (nth b cl [])).
  { intros a b Ha Hb. rewrite C3 by exact Ha. rewrite <- Hso. unfold triples. destruct (_ <? _).
    - apply (v1_at n); try assumption. rewrite Hso. apply sumL_nonneg. intros i Hi. apply sumL_nonneg. intros j Hj.
      apply Hpos; [apply (cluster_props n cl a Hcl), Hi|apply (cluster_props n cl b Hcl), Hj].
    - now apply (v2_at n). }
  set (PT' := coo_to_csr (length cl) triples) in *.
  set (p1' := map (fun idx => sumL (fun i => nth i v1 0%num) idx) cl).
  set (p2' := map (fun idx => sumL (fun i => nth i v2 0%num) idx) cl).
  assert (Eagg : ac_aggregate A cl = ac_init PT' (PVec p1' p2') sym).
  { unfold ac_aggregate. rewrite Esym, Esz, Ep. unfold p1', p2'.
    rewrite <- (agg_probs n cl v1 Hcl (proj1 L1) (proj2 L1)), <- (agg_probs n cl v2 Hcl (proj1 L2) (proj2 L2)).
    unfold v1, v2. destruct p as [q1 q2|q1 q2]; reflexivity. }
  assert (Hsym' : honest_symmetry (length cl) PT' sym).
  { intros Es a b Ha Hb. rewrite !C4 by assumption. unfold sum_over. rewrite sumL_swap.
    apply sumL_ext. intros j Hj. apply sumL_ext. intros i Hi. symmetry. apply (proj1 (proj2 HA) Es).
    - apply (cluster_props n cl b Hcl), Hj.
    - apply (cluster_props n cl a Hcl), Hi. }
  destruct (built_init (length cl) PT' (PVec p1' p2') sym C1) as [B HB].
  { unfold p1', p2'. now rewrite !map_length. }
  assert (Hbuilt : built (length cl) PT' (PVec p1' p2') sym B) by (split; [exact C1|split; assumption]).
  assert (N1 : forall a, a < length cl -> nth a p1' 0%num = sumL (fun i => nth i v1 0%num) (nth a cl [])).
  { intros a Ha. unfold p1'. now rewrite (nth_map_dep _ cl a []). }
  assert (N2 : forall a, a < length cl -> nth a p2' 0%num = sumL (fun i => nth i v2 0%num) (nth a cl [])).
  { intros a Ha. unfold p2'. now rewrite (nth_map_dep _ cl a []). }
  exists PT', p1', p2', B. split; [congruence|]. split; [exact Hbuilt|]. split.
  { split; unfold p1', p2'; rewrite sumL_map, (sum_all_clusters n cl _ Hcl).
    - rewrite <- (sumL_list_nth v1 n (proj1 L1)). apply L1.
    - rewrite <- (sumL_list_nth v2 n (proj1 L2)). apply L2. }
  split; [now apply (no_repetition_ok (length cl))|]. split; [exact C4|]. split; [exact N1|]. split; [exact N2|].
  split.
  2:{ intros Hpe. apply coo_positive; [exact Hcols|]. intros t Ht. unfold triples in Ht. destruct (_ <? _).
      - now apply v1_positive in Ht.
      - apply (v2_positive _ _ _ (sorted_positive n PT p sym A HA Hpe) Ht). }
  intros a b Ha Hb. rewrite (built_toarray _ _ _ _ _ _ _ Hbuilt) by assumption. rewrite C4 by assumption.
  cbn [p0_at]. rewrite N1, N2 by assumption. rewrite <- sum_over_prod, <- sum_over_sub.
  apply sum_over_ext. intros i j Hi Hj.
  assert (Hi' : i < n) by apply (cluster_props n cl a Hcl), Hi.
  assert (Hj' : j < n) by apply (cluster_props n cl b Hcl), Hj.
  rewrite (built_toarray _ _ _ _ _ _ _ HA) by assumption. f_equal. f_equal. symmetry. now apply vectors_p0.
Qed.
