(** Property C213: the best clusters do not join what is not connected. *)
From Coq Require Import Relations Reals Lia Permutation.
From Verif Require Import Base PartitionModel PartitionSpec PartitionProofs LouvainModel LouvainSpec LouvainProofs SparseModel EventsModel EventsSpec LaplacianProofs MergeProofs EventsProps TransModel TransSpec MatProofs
  FlowModel FlowSpec FlowProofs FlowStabProofs FlowStabProps JoinEndProps MultiModel SmallModel SmallSpec Components MeetSpec MeetProofs LocalProps ExpModel ExpSpec ExpSeries ExpProps PeriodSpec PeriodProps PathSpec PathProps ContactStabProps.
From Verif Require MultiSpec MultiProofs MultiProps StaticProps.

(** ** Specification *)
(** no partition has a larger stability *)
Definition best (n : nat) (A : mat) (q : partition) : Prop :=
  valid q /\ num_nodes q = n /\ forall q', valid q' -> num_nodes q' = n -> (compute_stability A q' <= compute_stability A q)%num.
(** connected by contacts of the window, in any order of time *)
Definition window_acquainted (t : table) (a b : num) : nat -> nat -> Prop :=
  clos_refl_sym_trans nat (fun i j => exists u, (a <= u)%num /\ (u < b)%num /\ contact t i j u).

(** ** Splitting *)
Definition halves (f : nat -> bool) (cl : list (list nat)) : list (list nat) := flat_map (fun c => [filter f c; filter (fun i => negb (f i)) c]) cl.
Lemma filter_halves (f : nat -> bool) l : Permutation (filter f l ++ filter (fun i => negb (f i)) l) l.
Proof.
  induction l as [|a l IH]; [constructor|]. cbn [filter]. destruct (f a); cbn [negb app]; [now constructor|]. apply Permutation_sym, Permutation_cons_app, Permutation_sym, IH.
Qed.
Lemma halves_perm f cl : Permutation (concat (halves f cl)) (concat cl).
Proof.
  induction cl as [|c cl IH]; [constructor|]. unfold halves in *. cbn [flat_map app concat]. rewrite app_assoc. apply Permutation_app; [apply filter_halves|exact IH].
Qed.
Lemma existsb_nonempty (g : list nat -> bool) l : g [] = false -> existsb g (filter nonempty l) = existsb g l.
Proof. intros H. induction l as [|c l IH]; [reflexivity|]. destruct c; cbn [filter nonempty existsb]; rewrite IH; [now rewrite H|reflexivity]. Qed.
Lemma memb_filter (f : nat -> bool) i c : memb i (filter f c) = f i && memb i c.
Proof.
  apply Bool.eq_iff_eq_true. rewrite andb_true_iff, !memb_In, filter_In. tauto.
Qed.
Lemma halves_same f q i j : sameb (part_of_list (num_nodes q) (halves f (cluster_list q))) i j = sameb q i j && Bool.eqb (f i) (f j).
Proof.
  unfold sameb, part_of_list, remove_empty_clusters. cbn [cluster_list]. rewrite existsb_nonempty by reflexivity.
  induction (cluster_list q) as [|c l IH]; [reflexivity|]. unfold halves in *. cbn [flat_map app existsb]. rewrite IH, !memb_filter.
  destruct (f i), (f j), (memb i c), (memb j c), (existsb (fun c => memb i c && memb j c) l); reflexivity.
Qed.
Lemma halves_valid f q : valid q -> valid (part_of_list (num_nodes q) (halves f (cluster_list q))) /\ num_nodes (part_of_list (num_nodes q) (halves f (cluster_list q))) = num_nodes q.
Proof.
  intros Hq. apply valid_list, partitions_perm. apply Permutation_trans with (concat (cluster_list q)); [apply halves_perm|now apply valid_perm].
Qed.
Lemma split_gains n A q (f : nat -> bool) x y : valid q -> num_nodes q = n -> (forall i j, i < n -> j < n -> f i <> f j -> (A i j <= 0)%num) ->
  x < n -> y < n -> together q x y -> f x <> f y -> (A x y < 0)%num -> exists q', valid q' /\ num_nodes q' = n /\ (compute_stability A q < compute_stability A q')%num.
Proof.
  intros Hq Hn HA Hx Hy HT Hf Hneg. destruct (halves_valid f q Hq) as [HV HN]. set (q' := part_of_list (num_nodes q) (halves f (cluster_list q))) in *.
  exists q'. split; [exact HV|]. split; [congruence|]. rewrite (stability_spec A q Hq), (stability_spec A q' HV). unfold stability. rewrite HN, Hn.
  set (g := fun i j => if sameb q i j && negb (Bool.eqb (f i) (f j)) then (- A i j)%num else 0%num).
  assert (E : sumN n (fun i => sumN n (fun j => if sameb q' i j then A i j else 0%num)) = (sumN n (fun i => sumN n (fun j => if sameb q i j then A i j else 0%num)) + sumN n (fun i => sumN n (g i)))%num).
  { rewrite <- sumN_add. apply sumN_ext. intros i Hi. rewrite <- sumN_add. apply sumN_ext. intros j Hj. unfold q', g. rewrite halves_same. destruct (sameb q i j), (Bool.eqb (f i) (f j)); cbn [andb negb]; ring. }
  assert (G0 : forall i j, i < n -> j < n -> (0 <= g i j)%num).
  { intros i j Hi Hj. unfold g. destruct (sameb q i j); cbn [andb]; [|discriminate]. destruct (Bool.eqb (f i) (f j)) eqn:EB; cbn [negb]; [discriminate|]. apply Bool.eqb_false_iff in EB. pose proof (HA i j Hi Hj EB). qlra. }
  assert (G1 : (0 < g x y)%num).
  { unfold g. apply sameb_together in HT. rewrite HT. apply Bool.eqb_false_iff in Hf. rewrite Hf. cbn [andb negb]. qlra. }
  assert (G : (0 < sumN n (fun i => sumN n (g i)))%num).
  { apply (sumN_term n (fun i => sumN n (g i)) x Hx); [intros i Hi; apply sumN_nonneg; intros j Hj; now apply G0|]. apply (sumN_term n (g x) y Hy); [intros j Hj; now apply G0|exact G1]. }
  rewrite E. revert G. generalize (sumN n (fun i => sumN n (g i))) (sumN n (fun i => sumN n (fun j => if sameb q i j then A i j else 0%num))). intros; qlra.
Qed.
(** nodes of one cluster of a best partition are connected by entries above the product of the
    probabilities *)
Lemma best_connected n (A : mat) (d e : nat -> num) q : (forall i, i < n -> (0 < d i)%num) -> (forall i, i < n -> (0 < e i)%num) -> best n A q ->
  forall x y, together q x y -> TransSpec.linked n (fun i j => (0 < A i j + d i * e j)%num) x y.
Proof.
  intros Hd He (Hq & Hn & HB) x y HT. set (B := fun i j : nat => if qltb 0 (A i j + d i * e j)%num then 1%num else 0%num).
  assert (HBl : forall i j, B i j <> 0%num <-> (0 < A i j + d i * e j)%num).
  { intros i j. unfold B. destruct (qltb_spec 0 (A i j + d i * e j)%num) as [L|L]; [split; [intros _; exact L|discriminate]|split; [intros H; now elim H|intros H; contradiction]]. }
  destruct (joined_ok n B) as [_ HL]. set (lab := snd (joined n B)) in *.
  assert (Hxy : x < n /\ y < n) by (rewrite <- Hn; now apply (together_lt q x y Hq)).
  destruct Hxy as [Hx Hy]. assert (HE : TransSpec.linked n (fun i j => B i j <> 0%num) x y).
  { apply (HL x y Hx Hy). destruct (Nat.eq_dec (lab x) (lab y)) as [E|E]; [exact E|exfalso].
    assert (HN : forall i j, i < n -> j < n -> lab i <> lab j -> (A i j < 0)%num).
    { intros i j Hi Hj Hij. destruct (qltb_spec 0 (A i j + d i * e j)%num) as [L|L].
      - exfalso. apply Hij, (HL i j Hi Hj). apply (TransSpec.linked_step n _ i i j); [now constructor|exact Hj|left; now apply HBl].
      - apply Qcnot_lt_le in L. pose proof (qmult_pos _ _ (Hd i Hi) (He j Hj)) as P. revert L P. generalize (d i * e j)%num. intros; qlra. }
    destruct (split_gains n A q (fun i => lab i =? lab x) x y Hq Hn) as (q' & V' & N' & G'); [| exact Hx|exact Hy|exact HT| |apply HN; assumption|].
    - intros i j Hi Hj Hij. apply Qclt_le_weak, HN; [exact Hi|exact Hj|]. intros E'. apply Hij. now rewrite E'.
    - rewrite Nat.eqb_refl. intros E'. symmetry in E'. apply Nat.eqb_eq in E'. now apply E.
    - exact (Qclt_not_le _ _ G' (HB q' V' N')). }
  clear - HE HBl. induction HE as [i Hi|i j k H IH Hk HR]; [now constructor|]. apply (TransSpec.linked_step n _ i j k IH Hk). destruct HR as [HR|HR]; [left|right]; now apply HBl.
Qed.

(** ** Flows *)
Lemma linked_rst n (R : nat -> nat -> Prop) (S' : nat -> nat -> Prop) x y : (forall i j, i < n -> j < n -> R i j -> S' i j) -> TransSpec.linked n R x y -> clos_refl_sym_trans nat S' x y.
Proof.
  intros H HL. induction HL as [i Hi|i j k HL IH Hk HR]; [apply rst_refl|]. destruct (linked_in _ _ _ _ HL) as [_ Hj]. apply rst_trans with j; [exact IH|].
  destruct HR as [HR|HR]; [apply rst_step; now apply H|apply rst_sym, rst_step; now apply H].
Qed.
(** * C213: in a best partition of the nodes, clusters hold nodes that walkers connect *)
Theorem C213_flow : forall n kd TL TI p1 tl g r rtol F q A, exact kd rtol -> distribution_ok n p1 -> times_ok tl -> all_stochastic n TL TI ->
  (forall i, i < n -> the_distribution n p1 i <> 0%num) -> flow_integral n kd TL TI p1 tl g r rtol = Some F -> In A (f_I F) -> best n A q ->
  forall x y, together q x y -> flows_together n (flow_transition n TL TI r) (steps_in TL TI tl) x y.
Proof.
  intros n kd TL TI p1 tl g r rtol F q A He Hp Ht HS Hpos HF HA HB x y HT.
  destruct (stored_averages _ _ _ _ _ _ _ _ _ _ He Hp Ht HS HF) as (ms & _ & Hin & H2).
  assert (HX : exists m, In m ms /\ eqm n A (flow_average n TL TI p1 tl r m)).
  { clear - H2 HA. induction H2 as [|B m X Y HB H2 IH]; [destruct HA|]. destruct HA as [<-|HA]; [exists m; split; [now left|exact HB]|]. destruct (IH HA) as (m' & Hm' & E'). exists m'. split; [now right|exact E']. }
  destruct HX as (m & Hm & EA). destruct (Hin m Hm) as [H0 Hm']. set (d := the_distribution n p1) in *.
  assert (Hd : forall i, i < n -> (0 < d i)%num). { intros i Hi. pose proof (proj1 (the_distribution_ok n p1 Hp) i Hi) as H. destruct (qle_lt_or_eq _ _ H) as [L|E]; [exact L|]. exfalso. now apply (Hpos i Hi). }
  pose proof (best_connected n A d d q Hd Hd HB x y HT) as HL. revert HL. apply linked_rst. intros i j Hi Hj H. rewrite (EA i j Hi Hj) in H.
  assert (HC : can_meet n (flow_transition n TL TI r) m i j).
  { apply (average_meet n d _ (flow_times TL TI tl r) m i j (the_distribution_ok n p1 Hp)); [|now apply ts_monotone|exact H0|now apply below_times|exact Hi|exact Hj|exact H].
    intros k Hk. apply flow_transition_stochastic; [exact HS|now apply (below_given TL TI tl k m)]. }
  destruct HC as (_ & _ & k & c & Hk & K). split; [exact Hi|]. split; [exact Hj|]. exists k, c. split; [lia|exact K].
Qed.
Print Assumptions C213_flow.
(** one transition matrix *)
Theorem C213_matrix : forall n p1 T c q, stochastic n T -> dense_init n p1 None (Some T) None None = Some c ->
  (forall i, i < n -> (0 < d_p1 c i)%num) -> (forall j, j < n -> exists i, i < n /\ T i j <> 0%num) -> best n (d_S c) q ->
  forall x y, together q x y -> MultiSpec.linked n T x y.
Proof.
  intros n p1 T c q HT Hi Hd He HB x y Hxy. unfold dense_init in Hi. match type of Hi with (if ?b then _ else _) = _ => destruct b end; [|discriminate Hi]. injection Hi as <-. cbn [d_p1 d_S trimmed] in *.
  set (p := match p1 with Some p => p | None => fun _ => (1 / qn n)%num end) in *.
  assert (HE : forall j, j < n -> (0 < vec_mat n p T j)%num).
  { intros j Hj. destruct (He j Hj) as (i & Hi & Hij). unfold vec_mat. assert (Hpos : forall i, i < n -> (0 <= p i * T i j)%num) by (intros k Hk; apply qmult_nonneg; [now apply Qclt_le_weak, Hd|now apply (proj1 HT)]).
    apply (sumN_term n (fun i => p i * T i j)%num i Hi Hpos). apply qmult_pos; [now apply Hd|]. destruct (qle_lt_or_eq _ _ (proj1 HT i j Hi Hj)) as [L|E]; [exact L|now elim Hij]. }
  pose proof (best_connected n (compute_S p (vec_mat n p T) T) p (vec_mat n p T) q Hd HE HB x y Hxy) as HL. revert HL. apply linked_rst. intros i j Hi Hj H. split; [exact Hi|]. split; [exact Hj|].
  unfold compute_S in H. destruct (qle_lt_or_eq _ _ (proj1 HT i j Hi Hj)) as [L|E]; [exact L|]. exfalso. rewrite <- E in H. revert H. generalize (vec_mat n p T j) (p i). intros a b H.
  replace (b * 0 - b * a + b * a)%num with 0%num in H by ring. discriminate H.
Qed.
Print Assumptions C213_matrix.

(** ** Networks *)
Lemma network_best N g a b ka kb Ls : right_laplacians N g -> no_self_contact (rows N) -> ids_ok N = true -> compute_laplacians N g a b = Some (ka, kb, Ls) -> ka <= kb ->
  forall lamda Ms kd p1 gr r rtol F q A, (0 < lamda)%R -> computed (num_nodes_of N) lamda (between (times (rows N)) ka kb) Ls Ms ->
    exact kd rtol -> distribution_ok (num_nodes_of N) p1 -> (forall i, i < num_nodes_of N -> the_distribution (num_nodes_of N) p1 i <> 0%num) ->
    flow_integral (num_nodes_of N) kd None (Some Ms) p1 (Some (between (times (rows N)) ka kb)) gr r rtol = Some F -> In A (f_I F) -> best (num_nodes_of N) A q ->
    forall x y, together q x y -> window_acquainted (rows N) (nth ka (times (rows N)) 0%num) (nth kb (times (rows N)) 0%num) x y.
Proof.
  intros HR Hself Hids E Hk lamda Ms kd p1 gr r rtol F q A Hl HM He Hp Hpos HI HA HB x y Hxy.
  pose proof (network_fits N g a b ka kb Ls HR Hself E Hk) as HF.
  destruct (HR a b) as (ka' & kb' & Ls' & E' & _ & _ & Hlen & La & Lb & _). rewrite E in E'. injection E' as <- <- <-.
  destruct (between_ends (times (rows N)) ka kb Hk Lb) as [B1 B2].
  assert (HC : forall w a b, (fun u i j => contact (rows N) i j u) w a b -> a < num_nodes_of N /\ b < num_nodes_of N).
  { intros w i j (e & He' & HJ & _). destruct (proj1 (ids_ok_spec N) Hids e He'). destruct HJ as [[<- <-]|[<- <-]]; now split. }
  destruct (computed_facts _ lamda _ Hl HC _ _ _ HF HM) as (K1 & K2 & _ & K4). rewrite B1, B2 in K4.
  assert (HS : all_stochastic (num_nodes_of N) None (Some Ms)) by (intros B HB'; now apply K2).
  pose proof (C213_flow _ kd None (Some Ms) p1 (Some (between (times (rows N)) ka kb)) gr r rtol F q A He Hp (fits_increasing _ _ _ Ls HF) HS Hpos HI HA HB x y Hxy) as HT.
  set (n := num_nodes_of N) in *. set (ta := nth ka (times (rows N)) 0%num) in *. set (tb := nth kb (times (rows N)) 0%num) in *.
  unfold flows_together in HT. revert HT. apply rst_incl. intros i j (Hi & Hj & k & c & _ & Hc & P1 & P2).
  assert (HW : forall u v, u < n -> v < n -> flow_transition n None (Some Ms) r k u v <> 0%num -> window_acquainted (rows N) ta tb u v).
  { unfold flow_transition, transition, given. apply chain_within; [intros u; apply rst_refl|intros u v w; apply rst_trans|].
    intros B HB' u v Hu Hv Hnz. assert (HIn : In B Ms).
    { assert (HI' : In B (TransSpec.in_order r Ms)) by (rewrite <- (firstn_skipn (S k)); apply in_or_app; now left). unfold TransSpec.in_order in HI'. destruct r; [now apply in_rev|exact HI']. }
    apply (K4 B HIn u v Hu Hv); [|intros z; apply rst_refl|intros z1 z2 z3; apply rst_trans|].
    - destruct (qle_lt_or_eq _ _ (proj1 (proj1 (K2 B HIn)) u v Hu Hv)) as [L|Z]; [exact L|]. now elim Hnz.
    - intros w z1 z2 W1 W2 Hct. apply rst_step. now exists w. }
  apply rst_trans with c; [|apply rst_sym]; apply HW; try assumption; intros Z; [rewrite Z in P1; discriminate P1|rewrite Z in P2; discriminate P2].
Qed.
(** nodes of one cluster of a best partition for a window are connected by contacts of the window *)
Theorem C213_contacts : forall fuel srcs tgts starts ends N g a b ka kb Ls lamda Ms kd p1 gr r rtol F q A, make_net fuel true false srcs tgts starts ends = Some N ->
  rows N <> [] -> ids_ok N = true -> no_self_contact (rows N) -> lasting (rows N) -> no_overlap (rows N) -> is_time_grid (rows N) g ->
  compute_laplacians N g a b = Some (ka, kb, Ls) -> ka <= kb -> (0 < lamda)%R -> computed (num_nodes_of N) lamda (between (times (rows N)) ka kb) Ls Ms ->
  exact kd rtol -> distribution_ok (num_nodes_of N) p1 -> (forall i, i < num_nodes_of N -> the_distribution (num_nodes_of N) p1 i <> 0%num) ->
  flow_integral (num_nodes_of N) kd None (Some Ms) p1 (Some (between (times (rows N)) ka kb)) gr r rtol = Some F -> In A (f_I F) -> best (num_nodes_of N) A q ->
  forall x y, together q x y -> window_acquainted (rows N) (nth ka (times (rows N)) 0%num) (nth kb (times (rows N)) 0%num) x y.
Proof.
  intros fuel srcs tgts starts ends N g a b ka kb Ls lamda Ms kd p1 gr r rtol F q A HN Hne Hids Hself HL HV HG E Hk Hl HM He Hp Hpos HI HA HB.
  refine (network_best N g a b ka kb Ls _ Hself Hids E Hk lamda Ms kd p1 gr r rtol F q A Hl HM He Hp Hpos HI HA HB).
  intros a0 b0. exact (C34_laplacians fuel srcs tgts starts ends N g a0 b0 HN Hne Hids Hself HL HV HG).
Qed.
Print Assumptions C213_contacts.

(** ** There is a best partition *)
Fixpoint label_lists (n k : nat) : list (list nat) := match k with 0 => [[]] | S k => flat_map (fun l => map (fun a => a :: l) (seq 0 n)) (label_lists n k) end.
Lemma label_lists_In n k l : In l (label_lists n k) <-> length l = k /\ forall a, In a l -> a < n.
Proof.
  revert l. induction k as [|k IH]; intros l; cbn [label_lists].
  - split; [intros [<-|[]]; split; [reflexivity|intros a []]|]. intros [H _]. destruct l; [now left|discriminate H].
  - rewrite in_flat_map. split.
    + intros (l' & Hl' & H). apply in_map_iff in H. destruct H as (a & <- & Ha). apply IH in Hl'. destruct Hl' as [<- Hl']. apply in_seq in Ha. split; [reflexivity|]. intros b [<-|Hb]; [lia|now apply Hl'].
    + intros [Hlen H]. destruct l as [|a l]; [discriminate Hlen|]. exists l. split; [apply IH; split; [now injection Hlen|intros b Hb; apply H; now right]|]. apply in_map_iff. exists a. split; [reflexivity|]. apply in_seq. split; [lia|]. cbn. apply H. now left.
Qed.
Definition of_labels (n : nat) (l : list nat) : partition := part_of_list n (map (fun c => filter (fun i => nth i l 0 =? c) (seq 0 n)) (seq 0 n)).
Lemma of_labels_cluster n l i x : in_cluster (map (fun c => filter (fun i => nth i l 0 =? c) (seq 0 n)) (seq 0 n)) i x <-> i < n /\ x < n /\ nth x l 0 = i.
Proof.
  split.
  - intros (c & Ec & Hc). assert (Hi : i < n). { assert (H : nth_error (map (fun c => filter (fun i => nth i l 0 =? c) (seq 0 n)) (seq 0 n)) i <> None) by (rewrite Ec; discriminate). apply nth_error_Some in H. rewrite map_length, seq_length in H. exact H. }
    rewrite (map_nth_error _ i (seq 0 n) (d := i)) in Ec by (rewrite nth_error_nth' with (d := 0) by (rewrite seq_length; exact Hi); rewrite seq_nth by exact Hi; reflexivity).
    injection Ec as <-. apply filter_In in Hc. destruct Hc as [H1 H2]. apply in_seq in H1. apply Nat.eqb_eq in H2. split; [exact Hi|]. split; [lia|exact H2].
  - intros (Hi & Hx & E). exists (filter (fun k => nth k l 0 =? i) (seq 0 n)). split.
    + apply (map_nth_error (fun c => filter (fun i => nth i l 0 =? c) (seq 0 n)) i (seq 0 n)). rewrite nth_error_nth' with (d := 0) by (rewrite seq_length; exact Hi). rewrite seq_nth by exact Hi. reflexivity.
    + apply filter_In. split; [apply in_seq; lia|now apply Nat.eqb_eq].
Qed.
Lemma of_labels_valid n l : In l (label_lists n n) -> valid (of_labels n l) /\ num_nodes (of_labels n l) = n.
Proof.
  intros Hl. apply label_lists_In in Hl. destruct Hl as [Hlen Hl]. apply valid_list. split; [|split].
  - apply Forall_forall. intros c Hc. apply in_map_iff in Hc. destruct Hc as (k & <- & _). apply NoDup_filter, seq_NoDup.
  - intros i j x Hi Hj. apply of_labels_cluster in Hi, Hj. destruct Hi as (_ & _ & <-), Hj as (_ & _ & <-). reflexivity.
  - intros x. split.
    + intros Hx. exists (nth x l 0). apply of_labels_cluster. split; [|split; [exact Hx|reflexivity]]. apply Hl, nth_In. lia.
    + intros (i & Hi). apply of_labels_cluster in Hi. apply Hi.
Qed.
Lemma of_labels_together n l x y : together (of_labels n l) x y <-> x < n /\ y < n /\ nth x l 0 = nth y l 0 /\ nth x l 0 < n.
Proof.
  rewrite together_iff. unfold of_labels, part_of_list, remove_empty_clusters. cbn [cluster_list]. split.
  - intros (c & Hc & H1 & H2). apply filter_In in Hc. destruct Hc as [Hc _]. apply In_nth_error in Hc. destruct Hc as [i Hi].
    assert (I1 := proj1 (of_labels_cluster n l i x) (ex_intro _ c (conj Hi H1))). assert (I2 := proj1 (of_labels_cluster n l i y) (ex_intro _ c (conj Hi H2))).
    destruct I1 as (A1 & A2 & A3), I2 as (_ & B2 & B3). split; [exact A2|]. split; [exact B2|]. split; [congruence|]. now rewrite A3.
  - intros (Hx & Hy & E & Hl). destruct (proj2 (of_labels_cluster n l (nth x l 0) x) (conj Hl (conj Hx eq_refl))) as (c & Ec & Hc).
    destruct (proj2 (of_labels_cluster n l (nth x l 0) y) (conj Hl (conj Hy (eq_sym E)))) as (c' & Ec' & Hc'). rewrite Ec in Ec'. injection Ec' as <-.
    exists c. split; [|split; assumption]. apply filter_In. split; [now apply nth_error_In in Ec|]. destruct c; [destruct Hc|reflexivity].
Qed.
Definition smallest (n : nat) (q : partition) (i : nat) : nat := match find (sameb q i) (seq 0 n) with Some k => k | None => 0 end.
Lemma find_ext (f g : nat -> bool) l : (forall x, f x = g x) -> find f l = find g l.
Proof. intros H. induction l as [|a l IH]; [reflexivity|]. cbn. rewrite H, IH. reflexivity. Qed.
Lemma labels_of n q : valid q -> num_nodes q = n -> exists l, In l (label_lists n n) /\ forall x y, together (of_labels n l) x y <-> together q x y.
Proof.
  intros Hq Hn. exists (map (smallest n q) (seq 0 n)).
  assert (HS : forall i, i < n -> smallest n q i < n /\ together q i (smallest n q i)).
  { intros i Hi. unfold smallest. destruct (find (sameb q i) (seq 0 n)) as [k|] eqn:E.
    - apply find_some in E. destruct E as [E1 E2]. apply in_seq in E1. split; [lia|now apply sameb_together].
    - exfalso. assert (Hf := find_none _ _ E i). rewrite (proj2 (sameb_together q i i)) in Hf; [|apply (valid_self q i Hq); now rewrite Hn]. assert (In i (seq 0 n)) by (apply in_seq; lia). specialize (Hf H). discriminate Hf. }
  assert (HN : forall x, x < n -> nth x (map (smallest n q) (seq 0 n)) 0 = smallest n q x).
  { intros x Hx. rewrite nth_indep with (d' := smallest n q 0) by (rewrite map_length, seq_length; exact Hx). rewrite map_nth, seq_nth by exact Hx. reflexivity. }
  split.
  - apply label_lists_In. split; [now rewrite map_length, seq_length|]. intros a Ha. apply in_map_iff in Ha. destruct Ha as (i & <- & Hi). apply in_seq in Hi. apply HS. lia.
  - intros x y. rewrite of_labels_together. split.
    + intros (Hx & Hy & E & _). rewrite (HN x Hx), (HN y Hy) in E. destruct (HS x Hx) as [_ T1], (HS y Hy) as [_ T2]. rewrite <- E in T2. apply (together_trans q x (smallest n q x) y Hq T1). destruct T2 as (k & K1 & K2). now exists k.
    + intros HT. destruct (together_lt q x y Hq HT) as [Hx Hy]. rewrite Hn in Hx, Hy. split; [exact Hx|]. split; [exact Hy|]. rewrite (HN x Hx), (HN y Hy). split; [|apply HS, Hx].
      unfold smallest. rewrite (find_ext (sameb q x) (sameb q y)); [reflexivity|]. intros z. apply Bool.eq_iff_eq_true. rewrite !sameb_together.
      assert (HT' : together q y x) by (destruct HT as (k & K1 & K2); now exists k). split; intros H; [apply (together_trans q y x z Hq HT' H)|apply (together_trans q x y z Hq HT H)].
Qed.
Lemma maximum (X : Type) (f : X -> num) (l : list X) : l <> [] -> exists x, In x l /\ forall y, In y l -> (f y <= f x)%num.
Proof.
  induction l as [|a l IH]; [now intros H|]. intros _. destruct l as [|b l].
  - exists a. split; [now left|]. intros y [<-|[]]. apply Qcle_refl.
  - destruct IH as (x & Hx & Hm); [discriminate|]. destruct (qleb_spec (f a) (f x)) as [L|L].
    + exists x. split; [now right|]. intros y [<-|Hy]; [exact L|now apply Hm].
    + apply Qcnot_le_lt in L. exists a. split; [now left|]. intros y [<-|Hy]; [apply Qcle_refl|]. apply Qcle_trans with (f x); [now apply Hm|now apply Qclt_le_weak].
Qed.
Theorem C213_exists : forall n A, exists q, best n A q.
Proof.
  intros n A. destruct (maximum _ (fun l => compute_stability A (of_labels n l)) (label_lists n n)) as (l & Hl & Hm).
  { intros E. assert (H : In (repeat 0 n) (label_lists n n)). { apply label_lists_In. split; [apply repeat_length|]. intros a Ha. destruct n; [destruct Ha|]. apply repeat_spec in Ha. lia. } rewrite E in H. destruct H. }
  destruct (of_labels_valid n l Hl) as [V N]. exists (of_labels n l). split; [exact V|]. split; [exact N|]. intros q Hq Hn. destruct (labels_of n q Hq Hn) as (l' & Hl' & HT).
  destruct (of_labels_valid n l' Hl') as [V' N']. specialize (Hm l' Hl'). 
  rewrite (stability_spec A q Hq), <- (same_together_stability A (of_labels n l') q); [|congruence|exact HT]. rewrite <- (stability_spec A _ V'). exact Hm.
Qed.
Print Assumptions C213_exists.

(** ** Concrete instances *)
Lemma best_checked n A l : In l (label_lists n n) -> forallb (fun l' => qleb (compute_stability A (of_labels n l')) (compute_stability A (of_labels n l))) (label_lists n n) = true -> best n A (of_labels n l).
Proof.
  intros Hl H. destruct (of_labels_valid n l Hl) as [V N]. split; [exact V|]. split; [exact N|]. intros q Hq Hn. destruct (labels_of n q Hq Hn) as (l' & Hl' & HT).
  destruct (of_labels_valid n l' Hl') as [V' N']. rewrite forallb_forall in H. specialize (H l' Hl').
  rewrite (stability_spec A q Hq), <- (same_together_stability A (of_labels n l') q); [|congruence|exact HT]. rewrite <- (stability_spec A _ V').
  destruct (qleb_spec (compute_stability A (of_labels n l')) (compute_stability A (of_labels n l))); [assumption|discriminate H].
Qed.
(* two pairs of nodes (C102): the best partition has them as clusters *)
Example C213_matrix_applies : exists c, dense_init 4 None None (Some MultiProps.pairs102) None None = Some c /\ stochastic 4 MultiProps.pairs102 /\ (forall i, i < 4 -> (0 < d_p1 c i)%num) /\
  (forall j, j < 4 -> exists i, i < 4 /\ MultiProps.pairs102 i j <> 0%num) /\ best 4 (d_S c) (of_labels 4 [0; 0; 2; 2]) /\ together (of_labels 4 [0; 0; 2; 2]) 2 3.
Proof.
  eexists. split.
  { unfold dense_init. rewrite StaticProps.rows_ok_one; [reflexivity|]. intros i Hi. exact (proj2 MultiProps.pairs102_stochastic i Hi). }
  split; [exact MultiProps.pairs102_stochastic|]. cbn [d_p1 d_S]. split; [intros i Hi; reflexivity|]. split.
  { intros j Hj. exists j. split; [exact Hj|]. destruct j as [|[|[|[|j]]]]; [| | | |exfalso; lia]; discriminate. }
  split; [|apply of_labels_together; cbn; lia]. apply best_checked; [apply label_lists_In; split; [reflexivity|intros a [<-|[<-|[<-|[<-|[]]]]]; lia]|]. vm_compute. reflexivity.
Qed.
(* the first two units of time of three nodes that meet one after the other (C194) *)
Definition laps213 : list mat := match compute_laplacians later (sorted_grid (rows later)) None (Some (qn 2)) with Some (_, _, l) => l | None => [] end.
Definition mats213 : list mat := [mixed 0 1; ident].
Definition flow213 := flow_integral 3 Dense None (Some mats213) None (Some (between (times (rows later)) 0 2)) None false None.
Lemma laps213_eq : laps213 = [nth 0 laps213 ident; nth 1 laps213 ident].
Proof. assert (E : length laps213 = 2) by (vm_compute; reflexivity). destruct laps213 as [|x [|y [|]]]; cbn in E; try discriminate E. reflexivity. Qed.
Definition same_entries (L L' : mat) : bool := forallb (fun i => forallb (fun j => qeqb (L i j) (L' i j)) (seq 0 3)) (seq 0 3).
Lemma same_entries_eq L L' : same_entries L L' = true -> forall i j, i < 3 -> j < 3 -> L i j = L' i j.
Proof.
  unfold same_entries. rewrite forallb_forall. intros H i j Hi Hj. assert (Hi' : In i (seq 0 3)) by (apply in_seq; lia). specialize (H i Hi'). rewrite forallb_forall in H.
  assert (Hj' : In j (seq 0 3)) by (apply in_seq; lia). specialize (H j Hj'). destruct (qeqb_spec (L i j) (L' i j)); [assumption|discriminate H].
Qed.
Lemma step213 L k M cls : k < 3 -> same_entries L (nth k laps210 ident) = true -> (forall i j, i < 3 -> j < 3 -> ((0 < M i j)%num <-> cls i = cls j)) -> stochastic 3 M ->
  forallb (fun i => forallb (fun j => (qeqb (nth k laps210 ident i j) 0 || (cls i =? cls j)) && ((i =? j) || negb (cls i =? cls j) || negb (qeqb (nth k laps210 ident i j) 0))) (seq 0 3)) (seq 0 3) = true ->
  forall (t u : num) lamda, (t < u)%num -> (0 < lamda)%R -> stochastic 3 M /\ (exists F, inter_matrix 3 (q2r (u - t)%num * lamda)%R L F /\ same_support 3 M F).
Proof.
  intros Hk HE HM HS HB t u lamda Htu Hl. pose proof (same_entries_eq _ _ HE) as EQ. destruct (step210 k M cls Hk HM HS HB t u lamda Htu Hl (laps210_walk k Hk)) as (_ & F & HF & HP).
  split; [exact HS|]. exists F. split; [|exact HP]. apply inter_expm in HF. apply inter_expm. revert HF. apply expm_ext; [|intros i j _ _; reflexivity]. intros i j Hi Hj. unfold scaled, toR. now rewrite (EQ i j Hi Hj).
Qed.
Lemma mats213_computed : computed 3 1%R (between (times (rows later)) 0 2) laps213 mats213.
Proof.
  assert (ET : between (times (rows later)) 0 2 = [qn 0; qn 1; qn 2]) by (vm_compute; reflexivity). rewrite ET, laps213_eq. unfold mats213. rewrite !computed_step.
  assert (K0 := step213 (nth 0 laps213 ident) 0 (mixed 0 1) cls01 ltac:(lia) ltac:(vm_compute; reflexivity) ltac:(pairs3) ltac:(stoch3) ltac:(vm_compute; reflexivity) (qn 0) (qn 1) 1%R ltac:(reflexivity) Rlt_0_1).
  assert (K1 := step213 (nth 1 laps213 ident) 1 ident (fun i => i) ltac:(lia) ltac:(vm_compute; reflexivity) ltac:(pairs3) ltac:(stoch3) ltac:(vm_compute; reflexivity) (qn 1) (qn 2) 1%R ltac:(reflexivity) Rlt_0_1).
  split; [apply K0|]. split; [apply K0|]. split; [apply K1|]. split; [apply K1|]. exact Logic.I.
Qed.
(* in the window 0 and 1 meet: they are one cluster of the best partition, 2 is alone *)
Example C213_applies : make_net 0 true false [0; 1] [1; 2] [qn 0; qn 2] [qn 1; qn 3] = Some later /\ rows later <> [] /\ ids_ok later = true /\ no_self_contact (rows later) /\ lasting (rows later) /\ no_overlap (rows later) /\
  compute_laplacians later (sorted_grid (rows later)) None (Some (qn 2)) = Some (0, 2, laps213) /\ computed 3 1%R (between (times (rows later)) 0 2) laps213 mats213 /\
  exists A, match flow213 with Some F => f_I F = [A] | None => False end /\ best 3 A (of_labels 3 [0; 0; 2]) /\ together (of_labels 3 [0; 0; 2]) 0 1.
Proof.
  destruct C210_applies as (H1 & H2 & H3 & H4 & H5 & H6 & _). split; [exact H1|]. split; [exact H2|]. split; [exact H3|]. split; [exact H4|]. split; [exact H5|]. split; [exact H6|]. split.
  { unfold laps213. destruct (compute_laplacians later (sorted_grid (rows later)) None (Some (qn 2))) as [[[ka kb] l]|] eqn:E.
    - assert (K : match compute_laplacians later (sorted_grid (rows later)) None (Some (qn 2)) with Some (x, y, _) => (x, y) | None => (7, 7) end = (0, 2)) by (vm_compute; reflexivity). rewrite E in K. injection K as -> ->. reflexivity.
    - assert (K : match compute_laplacians later (sorted_grid (rows later)) None (Some (qn 2)) with Some _ => true | None => false end = true) by (vm_compute; reflexivity). rewrite E in K. discriminate K. }
  split; [exact mats213_computed|]. destruct flow213 as [F|] eqn:E.
  2:{ assert (K : match flow213 with Some _ => true | None => false end = true) by (vm_compute; reflexivity). rewrite E in K. discriminate K. }
  assert (K : match flow213 with Some F => length (f_I F) | None => 7 end = 1) by (vm_compute; reflexivity). rewrite E in K. destruct (f_I F) as [|A [|]] eqn:EA; cbn in K; try discriminate K.
  exists A. split; [reflexivity|]. split; [|apply of_labels_together; cbn; lia].
  apply best_checked; [apply label_lists_In; split; [reflexivity|intros a [<-|[<-|[<-|[]]]]; lia]|].
  assert (KS : match flow213 with Some F => match f_I F with A :: _ => forallb (fun l' => qleb (compute_stability A (of_labels 3 l')) (compute_stability A (of_labels 3 [0; 0; 2]))) (label_lists 3 3) | [] => false end | None => false end = true) by (vm_compute; reflexivity).
  rewrite E, EA in KS. exact KS.
Qed.
