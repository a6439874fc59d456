(** Slices of time and batches: properties C131-C137. *)
From Coq Require Import SpecFloat.
From Verif Require Import Base PartitionModel LouvainModel SparseModel SparseSpec EventsModel EventsSpec EventsProofs LaplacianProofs EventsProps TransModel TransSpec MatProofs TransProofs TransProps SliceModel SliceSpec SliceProofs.

(** * C131: the slices divide the period *)
(** with double precision numbers, for bounds that are integers *)
Definition C131_statement : Prop := forall (t0 tend : Z) num_slices fuel l, (t0 < tend)%Z -> 0 < num_slices ->
  slices_float (fint t0) (fint tend) (slice_length_float (fint t0) (fint tend) num_slices) fuel = Some l -> length (slices_of l) = num_slices.
(** fifty slices, the default, of the period from 0 to 10: there are 51 *)
Theorem C131_rounding_refuted : ~ C131_statement.
Proof.
  intros H. assert (E : option_map (fun l => length (slices_of l)) (slices_float (fint 0) (fint 10) (slice_length_float (fint 0) (fint 10) 50) 60) = Some 51) by (vm_compute; reflexivity).
  destruct (slices_float (fint 0) (fint 10) (slice_length_float (fint 0) (fint 10) 50) 60) as [l|] eqn:EL; [|discriminate E]. injection E as E.
  rewrite (H 0%Z 10%Z 50 60 l ltac:(lia) ltac:(lia) EL) in E. discriminate E.
Qed.
(** with exact numbers *)
Theorem C131_exact_partial : forall t0 tend num_slices, (t0 < tend)%num -> 0 < num_slices ->
  exists l, slices_exact t0 tend (slice_length t0 tend num_slices) num_slices = Some l /\ length (slices_of l) = num_slices /\
    regular t0 (slice_length t0 tend num_slices) l /\ hd tend l = t0 /\ last l t0 = tend.
Proof.
  intros t0 tend m Ht Hm. assert (Hq : (0 < qn m)%num) by (rewrite <- qn_0; now apply qn_lt). assert (Hq' : qn m <> 0%num) by (intros K; rewrite K in Hq; revert Hq; apply Qcle_not_lt, Qcle_refl).
  set (len := slice_length t0 tend m). assert (EL : (qn m * len = tend - t0)%num) by (unfold len, slice_length; field; exact Hq').
  destruct (after_total len tend m t0) as (l & E & Hl). { rewrite EL. replace (t0 + (tend - t0))%num with tend by ring. apply Qcle_refl. }
  assert (ES : slices_exact t0 tend len m = Some (t0 :: l)) by (unfold slices_exact, time_slices; now rewrite E).
  destruct (slices_regular _ _ _ _ _ ES) as ([HN HR] & HEnd & HB). assert (HL : length l = m).
  { destruct (Nat.lt_ge_cases (length l) m) as [Hlt|Hge]; [|lia]. exfalso. rewrite last_nth in HEnd. cbn [length] in HEnd. rewrite Nat.sub_1_r in HEnd. cbn [pred] in HEnd.
    rewrite (nth_indep _ t0 0%num) in HEnd by (cbn; lia). rewrite HR in HEnd by (cbn; lia). assert (Hlen : (0 < len)%num).
    { unfold len, slice_length. unfold Qcdiv. apply qmult_pos; [qlra|now apply qinv_pos]. }
    assert (K : (qn (length l) * len < qn m * len)%num) by (apply Qcmult_lt_compat_r; [exact Hlen|now apply qn_lt]). revert HEnd K. rewrite EL. generalize (qn (length l) * len)%num. intros. qlra. }
  exists (t0 :: l). split; [exact ES|]. split; [rewrite slices_of_length; cbn; lia|]. split; [split; assumption|]. split; [reflexivity|].
  rewrite last_nth. cbn [length]. rewrite Nat.sub_1_r. cbn [pred]. rewrite (nth_indep _ t0 0%num) by (cbn; lia). rewrite HR by (cbn; lia). rewrite HL, EL. ring.
Qed.
(** with a given length the slices are contiguous, of this length, and cover the period; the last
    one may pass its end *)
Theorem C131_length_partial : forall t0 tend len, (0 < len)%num -> exists fuel l, (forall fuel', fuel <= fuel' -> slices_exact t0 tend len fuel' = Some l) /\
  regular t0 len l /\ (tend <= last l t0)%num /\ (forall i, S i < length l -> (nth i l 0 < tend)%num) /\
  forall i, i < length (slices_of l) -> nth i (slices_of l) (0, 0)%num = ((t0 + qn i * len)%num, (t0 + qn (S i) * len)%num).
Proof.
  intros t0 tend len Hlen. destruct (slices_exist t0 tend len Hlen) as (fuel & l & E). exists fuel, l. destruct (slices_regular _ _ _ _ _ E) as (HR & H2 & H3). split; [intros f Hf; now apply (slices_more _ _ _ fuel)|]. split; [exact HR|]. split; [exact H2|]. split; [exact H3|].
  intros i Hi. rewrite slices_of_length in Hi. destruct HR as [_ HR]. rewrite slices_of_nth by lia. now rewrite !HR by lia.
Qed.
Example C131_applies : exists l, slices_exact (qn 0) (qn 10) (qn 3) 10 = Some l /\ l = [qn 0; qn 3; qn 6; qn 9; qn 12].
Proof. eexists. split; [vm_compute; reflexivity|]. repeat f_equal; apply Qc_is_canon; vm_compute; reflexivity. Qed.

(** * C132: every slice is in one batch *)
Theorem C132_batches : forall (T : Type) (bounds : list T) skip total, 0 < total ->
  concat (map (fun b => to_compute skip (batch (full_batch bounds) total b)) (seq 0 total)) = to_compute skip (full_batch bounds) /\
  (forall i d, i < length (slices_of bounds) -> nth i (full_batch bounds) d = (i, nth i (slices_of bounds) (snd d))) /\
  forall x, In x (to_compute skip (full_batch bounds)) <-> In x (full_batch bounds) /\ ~ In (fst x) skip.
Proof.
  intros T bounds skip total Ht. split; [|split].
  - transitivity (to_compute skip (concat (map (batch (full_batch bounds) total) (seq 0 total)))); [|now rewrite batches_concat]. unfold to_compute. rewrite filter_concat, map_map. reflexivity.
  - intros i [d0 d] Hi. unfold full_batch. rewrite combine_nth by (now rewrite seq_length). rewrite seq_nth by exact Hi. reflexivity.
  - intros x. unfold to_compute. rewrite filter_In. assert (K : negb (existsb (Nat.eqb (fst x)) skip) = true <-> ~ In (fst x) skip).
    { rewrite negb_true_iff. split.
      - intros H Hin. assert (existsb (Nat.eqb (fst x)) skip = true); [|congruence]. apply existsb_exists. exists (fst x). split; [exact Hin|apply Nat.eqb_refl].
      - intros H. destruct (existsb (Nat.eqb (fst x)) skip) eqn:E; [|reflexivity]. apply existsb_exists in E. destruct E as (y & Hy & Ey). apply Nat.eqb_eq in Ey. subst y. contradiction. }
    tauto.
Qed.
Example C132_applies : map (fun b => map fst (to_compute [1] (batch (full_batch (seq 10 8)) 3 b))) (seq 0 3) = [[0]; [2; 3]; [4; 5; 6]].
Proof. reflexivity. Qed.

(** * C133: the batches share the slices *)
Definition C133_statement : Prop := forall (T : Type) (full : list T) total a b, a < total -> b < total ->
  length (batch full total a) <= S (length (batch full total b)).
(** eight slices in three batches: 2, 2 and 4 *)
Theorem C133_last_batch_refuted : ~ C133_statement.
Proof. intros H. specialize (H nat (seq 0 8) 3 2 0 ltac:(lia) ltac:(lia)). cbn in H. lia. Qed.
Theorem C133_sizes_partial : forall (T : Type) (full : list T) total b, b < total ->
  length (batch full total b) = length full / total + (if S b =? total then length full mod total else 0).
Proof. intros. now apply batch_length. Qed.
Theorem C133_dividing_partial : forall (T : Type) (full : list T) total b size, b < total -> length full = total * size -> length (batch full total b) = size.
Proof.
  intros T full total b size Hb H. rewrite batch_length by exact Hb. rewrite H. rewrite (Nat.mul_comm total), Nat.div_mul by lia. rewrite Nat.mod_mul by lia. destruct (S b =? total); lia.
Qed.

(** * C134: the Laplacians of the slices are those of the period *)
Definition C134_statement : Prop := forall fuel srcs tgts starts ends N g a bounds, make_net fuel true false srcs tgts starts ends = Some N ->
  rows N <> [] -> ids_ok N = true -> no_self_contact (rows N) -> lasting (rows N) -> is_time_grid (rows N) g -> increasing (a :: bounds) ->
  exists rs ka kb Ls, map (slice_laplacians N g) (slices_of (a :: bounds)) = map Some rs /\
    slice_laplacians N g (a, last bounds a) = Some (ka, kb, Ls) /\ contiguous ka rs kb /\
    same_matrices (num_nodes_of N) (concat (map snd rs)) Ls.
(** two contacts of a pair overlap: from 0 to 4 and from 2 to 6; the slice starting at 5 finds
    the second one, which the end of the first has interrupted *)
Definition net134 : net := mkNet [(0, ev 0 1 0 4); (1, ev 0 1 2 6); (2, ev 1 2 5 6)] [0; 1; 2].
Lemma net134_made : make_net 0 true false [0; 0; 1] [1; 1; 2] [qn 0; qn 2; qn 5] [qn 4; qn 6; qn 6] = Some net134.
Proof. vm_compute. reflexivity. Qed.
Theorem C134_overlap_refuted : ~ C134_statement.
Proof.
  intros H. destruct (H 0 _ _ _ _ net134 (sorted_grid (rows net134)) (qn 0) [qn 5; qn 6] net134_made) as (rs & ka & kb & Ls & E1 & E2 & _ & HL & HS).
  - discriminate.
  - reflexivity.
  - intros e; in_cases; cbn; lia.
  - intros e; in_cases; apply qn_lt; lia.
  - apply grid_exists.
  - repeat constructor; apply qn_le; lia.
  - assert (K1 : match slice_laplacians net134 (sorted_grid (rows net134)) (qn 0, qn 6) with Some (_, _, Ls) => length Ls = 4 /\ qeqb (nth 3 Ls ident 0 1) 0%num = true | None => False end) by (vm_compute; auto).
    assert (K2 : match slice_laplacians net134 (sorted_grid (rows net134)) (qn 0, qn 5), slice_laplacians net134 (sorted_grid (rows net134)) (qn 5, qn 6) with
                 | Some (_, _, L1), Some (_, _, L2) => length L1 = 3 /\ length L2 = 1 /\ qeqb (nth 0 L2 ident 0 1) 0%num = false | _, _ => False end) by (vm_compute; auto).
    change (last [qn 5; qn 6] (qn 0)) with (qn 6) in E2. rewrite E2 in K1. destruct K1 as [K1 K1'].
    change (slices_of [qn 0; qn 5; qn 6]) with [(qn 0, qn 5); (qn 5, qn 6)] in E1. destruct rs as [|[[a1 b1] L1] [|[[a2 b2] L2] [|]]]; try discriminate E1. cbn [map] in E1. pose proof (f_equal (fun l => nth 0 l None) E1) as E3. pose proof (f_equal (fun l => nth 1 l None) E1) as E4. cbv beta in E3, E4. cbn [nth] in E3, E4. rewrite E3, E4 in K2. destruct K2 as (K2 & K3 & K4).
    cbn [map snd concat] in HL, HS. rewrite app_nil_r in HL, HS. specialize (HS 3 ltac:(rewrite app_length; lia) 0 1 ltac:(vm_compute; lia) ltac:(vm_compute; lia)).
    rewrite app_nth2 in HS by lia. rewrite K2 in HS. change (3 - 3) with 0 in HS. rewrite HS, K1' in K4. discriminate K4.
Qed.
Theorem C134_apart_partial : forall fuel srcs tgts starts ends N g a bounds, make_net fuel true false srcs tgts starts ends = Some N ->
  rows N <> [] -> ids_ok N = true -> no_self_contact (rows N) -> lasting (rows N) -> no_overlap (rows N) -> is_time_grid (rows N) g -> increasing (a :: bounds) ->
  exists rs ka kb Ls, map (slice_laplacians N g) (slices_of (a :: bounds)) = map Some rs /\
    slice_laplacians N g (a, last bounds a) = Some (ka, kb, Ls) /\ contiguous ka rs kb /\
    same_matrices (num_nodes_of N) (concat (map snd rs)) Ls.
Proof.
  intros fuel srcs tgts starts ends N g a bounds HN Hne Hids Hself HLast HNo HG HI.
  assert (HLap : forall a b, exists ka kb Ls, compute_laplacians N g a b = Some (ka, kb, Ls) /\ start_index (times (rows N)) a ka /\ stop_index (times (rows N)) b kb /\
    length Ls = kb - ka /\ ka < length (times (rows N)) /\ kb < length (times (rows N)) /\ right_from N ka Ls).
  { intros a' b'. destruct (C34_laplacians fuel srcs tgts starts ends N g a' b' HN Hne Hids Hself HLast HNo HG) as (ka & kb & Ls & H1 & H2 & H3 & H4 & H5 & H6 & H7). exists ka, kb, Ls. repeat (split; [assumption|]). intros k u Hk. apply H7. lia. }
  destruct (slices_laplacians N g HLap a bounds HI) as (rs & ka & kb & E & Sa & Sb & La & Lb & Hle & HC & HL & HR).
  destruct (HLap (Some a) (Some (last bounds a))) as (ka' & kb' & Ls & E1 & Sa' & Sb' & L1 & La' & Lb' & R1).
  assert (ka' = ka) by (apply (start_unique (times (rows N)) a ka' ka (times_sorted _)); assumption). assert (kb' = kb) by (apply (start_unique (times (rows N)) (last bounds a) kb' kb (times_sorted _)); assumption). subst ka' kb'.
  exists rs, ka, kb, Ls. split; [exact E|]. split; [exact E1|]. split; [exact HC|]. apply (right_unique N ka); [lia|lia|exact HR|exact R1].
Qed.
Example C134_applies : make_net 0 true false [0; 1] [1; 2] [qn 0; qn 1] [qn 1; qn 3] = Some net39 /\ lasting (rows net39) /\ no_overlap (rows net39) /\ increasing [qn 0; qf 1 2; qn 3] /\
  map (fun s => option_map (fun r => length (snd r)) (slice_laplacians net39 (sorted_grid (rows net39)) s)) (slices_of [qn 0; qf 1 2; qn 3]) = [Some 0; Some 2].
Proof.
  split; [reflexivity|]. split; [intros e; in_cases; apply qn_lt; lia|]. split.
  - intros a b e f i j [Ha|[Ha|[]]] [Hb|[Hb|[]]] Hab Hj Hj'; injection Ha as <- <-; injection Hb as <- <-; try congruence; exfalso; destruct Hj as [[]|[]], Hj' as [[]|[]]; cbn in *; congruence.
  - split; [repeat constructor; vm_compute; discriminate|]. vm_compute. reflexivity.
Qed.

(** * C135: the transition matrices of the slices multiply to that of the period *)
Theorem C135_products : forall fuel srcs tgts starts ends N g E Z lamda sparse force reverse_time a bounds, make_net fuel true false srcs tgts starts ends = Some N ->
  rows N <> [] -> ids_ok N = true -> no_self_contact (rows N) -> lasting (rows N) -> no_overlap (rows N) -> is_time_grid (rows N) g -> increasing (a :: bounds) ->
  expm_ok (num_nodes_of N) E -> by_entries (num_nodes_of N) E -> zeroing (num_nodes_of N) Z -> (0 <= lamda)%num ->
  exists As A, map (slice_transition N g E Z lamda 0 sparse force reverse_time) (slices_of (a :: bounds)) = map (fun A => Some (One A)) As /\
    slice_transition N g E Z lamda 0 sparse force reverse_time (a, last bounds a) = Some (One A) /\
    eqm (num_nodes_of N) A (chain (num_nodes_of N) (in_order reverse_time As)) /\ (forall B, In B (A :: As) -> stochastic (num_nodes_of N) B).
Proof.
  intros fuel srcs tgts starts ends N g E Z x sparse force rv a bounds HN Hne Hids Hself HLast HNo HG HI HE HB HZ Hx.
  destruct (C134_apart_partial fuel srcs tgts starts ends N g a bounds HN Hne Hids Hself HLast HNo HG HI) as (rs & ka & kb & Ls & ER & EL & HC & HS).
  destruct (C39_network_laplacians fuel true srcs tgts starts ends N g HN Hne Hids Hself HG) as [HOk _]. set (n := num_nodes_of N) in *.
  destruct (slice_transition_ok N g E Z x HOk HE HZ Hx sparse force rv a (last bounds a)) as (ka' & kb' & Ls' & A & EL' & EA & HA & HSA). unfold slice_laplacians in EL. cbn [fst snd] in EL. rewrite EL in EL'. injection EL' as <- <- <-.
  assert (HAs : forall l rs k k', map (slice_laplacians N g) l = map Some rs -> (forall r, In r rs -> length (snd r) = snd (fst r) - fst (fst r)) -> contiguous k rs k' -> exists As ls, map (slice_transition N g E Z x 0 sparse force rv) l = map (fun A => Some (One A)) As /\
    Forall2 (fun A l => eqm n A (chain n (in_order rv l))) As ls /\ concat ls = step_matrices N E x k (concat (map snd rs)) /\ (forall B, In B As -> stochastic n B)).
  { clear -HOk HE HZ Hx. induction l as [|[s u] l IH]; intros [|[[k1 k2] L] rs] k k' H HLen HC; try discriminate H.
    - exists [], []. split; [reflexivity|]. split; [constructor|]. split; [reflexivity|]. intros B [].
    - cbn [map] in H. injection H as H1 H2. destruct HC as (-> & Hle & HC). destruct (IH rs k2 k' H2 (fun r Hr => HLen r (or_intror Hr)) HC) as (As & ls & E1 & HF & EC & HSt).
      destruct (slice_transition_ok N g E Z x HOk HE HZ Hx sparse force rv s u) as (ka & kb & Ls & A & EL & EA & HA & HSA). unfold slice_laplacians in H1. cbn [fst snd] in H1. rewrite EL in H1. injection H1 as -> -> ->.
      exists (A :: As), (step_matrices N E x k L :: ls). cbn [map]. rewrite EA, E1. split; [reflexivity|]. split; [constructor; assumption|]. split.
      + cbn [concat map snd]. rewrite step_matrices_app, EC. specialize (HLen (k, k2, L) (or_introl eq_refl)). cbn in HLen. replace (k + length L) with k2 by lia. reflexivity.
      + intros B [<-|HB]; auto. }
  destruct (HAs _ rs ka kb ER) as (As & ls & E1 & HF & EC & HSt); [|exact HC|].
  { intros [[k1 k2] L] Hr. cbn. assert (HM : In (Some (k1, k2, L)) (map Some rs)) by (now apply in_map). rewrite <- ER in HM. apply in_map_iff in HM. destruct HM as ([s u] & Es & _). destruct (HOk (Some s) (Some u)) as (p & q & M & EM & _ & HM & _). unfold slice_laplacians in Es. cbn [fst snd] in Es. rewrite EM in Es. injection Es as <- <- <-. exact HM. }
  exists As, A. split; [exact E1|]. split; [exact EA|]. split; [|intros B [<-|HB']; auto].
  eapply eqm_trans; [exact HA|]. apply eqm_sym. eapply eqm_trans; [apply chain_in_order, HF|]. rewrite EC. apply chain_same.
  pose proof (step_matrices_same N E x ka _ _ HB HS) as [HM1 HM2]. destruct rv; [|split; assumption]. cbn [in_order]. split; [now rewrite !rev_length|]. rewrite rev_length. intros k Hk. rewrite !rev_nth by lia. rewrite <- HM1. apply HM2. lia.
Qed.
Example C135_applies : expm_ok 3 Estep /\ by_entries 3 Estep /\ zeroing 3 (zeroed 3) /\
  match slice_transition net39 (sorted_grid (rows net39)) Estep (zeroed 3) 1%num 0%num true false false (qn 0, qn 3) with Some (One A) => qeqb (A 0 2) 0%num = false | _ => False end.
Proof.
  split; [apply Estep_ok|]. split; [intros x L L' H i j Hi Hj; unfold Estep, mminus, mscal; now rewrite (H i j Hi Hj)|]. split; [apply zeroed_zeroing|]. vm_compute. reflexivity.
Qed.

(** * C136: the static adjacency matrices of the slices add up *)
Theorem C136_adjacencies : forall N a bounds, ids_ok N = true -> (forall e, In e (map snd (rows N)) -> (e_start e <= e_end e)%num) -> increasing (a :: bounds) ->
  exists As A, map (slice_adjacency N) (slices_of (a :: bounds)) = map Some As /\ slice_adjacency N (a, last bounds a) = Some A /\
    forall i j, A i j = sumL (fun B => B i j) As.
Proof.
  intros N a bounds Hids HOrd. revert a. induction bounds as [|b bounds IH]; intros a HI.
  - destruct (C38_durations N a a Hids HOrd (Qcle_refl _)) as (A & EA & _ & _ & _ & Hadd). exists [], A. split; [reflexivity|]. split; [exact EA|]. intros i j. rewrite sumL_nil. specialize (Hadd a A A (Qcle_refl _) (Qcle_refl _) EA EA i j). revert Hadd. generalize (A i j). intros x Hx. qlra.
  - assert (HI' : increasing (b :: bounds)) by (inversion HI; assumption). apply StronglySorted_inv in HI. destruct HI as [_ HF]. assert (Hab : (a <= b)%num) by (inversion HF; assumption). destruct (IH b HI') as (As & A & E1 & E2 & HA).
    assert (Elast : last (b :: bounds) a = last bounds b) by apply last_first. rewrite Elast.
    assert (Hbl : (b <= last bounds b)%num). { clear -HI'. destruct bounds as [|c l] using rev_ind; [apply Qcle_refl|]. rewrite last_last. apply StronglySorted_inv in HI'. destruct HI' as [_ HF]. rewrite Forall_forall in HF. apply HF. apply in_or_app. right. now left. }
    assert (Hal : (a <= last bounds b)%num) by (apply Qcle_trans with b; assumption).
    destruct (C38_durations N a (last bounds b) Hids HOrd Hal) as (C & EC & _ & _ & _ & Hadd). destruct (C38_durations N a b Hids HOrd Hab) as (B & EB & _).
    exists (B :: As), C. rewrite slices_of_cons. cbn [map]. unfold slice_adjacency at 1. cbn [fst snd]. rewrite EB, E1. split; [reflexivity|]. split; [exact EC|]. intros i j. rewrite sumL_cons, <- HA. symmetry. now apply (Hadd b).
Qed.
Example C136_applies : ids_ok net38 = true /\ (forall e, In e (map snd (rows net38)) -> (e_start e <= e_end e)%num) /\ increasing [qn 0; qn 2; qn 5] /\
  match map (slice_adjacency net38) (slices_of [qn 0; qn 2; qn 5]) with [Some A; Some B] => A 0 1 = qn 3 /\ B 0 1 = qn 2 | _ => False end.
Proof. split; [reflexivity|]. split; [intros e; in_cases; apply qn_le; lia|]. split; [repeat constructor; apply qn_le; lia|]. vm_compute. split; now apply Qc_is_canon. Qed.

(** * C137: the files asked for are written *)
Definition C137_statement : Prop := forall o f, asked o f -> In f (worker_files o []).
Theorem C137_verbose_refuted : ~ C137_statement.
Proof. intros H. specialize (H (mkOptions false true true true true [1%num]) (Inter false 1%num) ltac:(cbn; auto)). cbn in H. exact H. Qed.
(** whatever the options and the files found, only the static adjacency matrix is written: the
    methods do not take the argument verbose *)
Theorem C137_only_adjacency_partial : forall o d, o_expm o = true \/ o_lin o = true ->
  (forall f, In f (worker_files o d) <-> f = Adjacency /\ o_static o = true /\ ~ In Adjacency d) /\ NoDup (worker_files o d).
Proof.
  intros o d Hc. assert (HW : forall tau, written (tau_steps o d tau) = []).
  { intros tau. unfold tau_steps. destruct (o_expm o); [reflexivity|]. destruct (o_lin o); [reflexivity|]. destruct Hc; discriminate. }
  assert (HX : exists_file d Adjacency = true <-> In Adjacency d).
  { unfold exists_file. rewrite existsb_exists. split; [intros ([] & Hx & E); [exact Hx|discriminate|discriminate]|]. intros H. exists Adjacency. split; [exact H|reflexivity]. }
  assert (E : worker_files o d = if (o_static o && negb (exists_file d Adjacency))%bool then [Adjacency] else []).
  { unfold worker_files. assert (HF : flat_map (fun tau => written (tau_steps o d tau)) (o_taus o) = []) by (induction (o_taus o) as [|t l IH]; [reflexivity|]; cbn [flat_map]; now rewrite HW). rewrite HF, app_nil_r.
    unfold save_if_missing. destruct (all_exist o d), (o_static o), (exists_file d Adjacency); reflexivity. }
  rewrite E. destruct (o_static o), (exists_file d Adjacency); cbn [andb negb]; (split; [|repeat constructor; intros []]); intros f.
  - split; [intros []|]. intros (_ & _ & H). apply H. now apply HX.
  - split; [intros [<-|[]]; repeat split; intros H; apply HX in H; discriminate|]. intros (-> & _). now left.
  - split; [intros []|]. now intros (_ & H & _).
  - split; [intros []|]. now intros (_ & H & _).
Qed.
Example C137_applies : In Adjacency (worker_files (mkOptions true true false true false [1%num]) []) /\ ~ In (Inter false 1%num) (worker_files (mkOptions true true false true false [1%num]) []).
Proof. cbn. split; [now left|]. intros [H|[]]. discriminate H. Qed.

(** * C184: a slice is left out when there is nothing to do *)
(** the test whether all files exist, l.308-340 *)
Definition C184_statement : Prop := forall o d, o_expm o = true \/ o_lin o = true -> o_inter o = true \/ o_trans o = true ->
  (all_exist o d = true <-> forall f, asked o f -> f <> Adjacency -> In f d).
Lemma exists_file_In d f : exists_file d f = true <-> In f d.
Proof.
  assert (HE : forall g, fname_eqb f g = true <-> g = f).
  { intros g. destruct f as [|l t|l r t], g as [|l' t'|l' r' t']; cbn; try (split; [discriminate|intros E; discriminate E]); [split; reflexivity| |];
      rewrite !andb_true_iff, !Bool.eqb_true_iff; (destruct (qeqb_spec t t') as [->|Hn]; [|split; [intuition discriminate|intros E; injection E; intros; congruence]]);
      (split; [intros E; repeat match goal with H : _ /\ _ |- _ => destruct H end; congruence|intros E; injection E; intros; subst; auto]). }
  unfold exists_file. rewrite existsb_exists. split; [intros (g & Hg & E); apply HE in E; now subst|]. intros H. exists f. split; [exact H|now apply HE].
Qed.
Lemma all_exist_spec o d : all_exist o d = true <->
  ((forall lin t, In t (o_taus o) -> In (Inter lin t) d) /\ o_trans o = false) \/ (forall lin r t, In t (o_taus o) -> In (Trans lin r t) d).
Proof.
  unfold all_exist. rewrite orb_true_iff, !andb_true_iff, negb_true_iff, !forallb_forall. split.
  - intros [[[H1 H2] H3]|[H1 H2]]; [left; split; [|exact H3]; intros [] t Ht; apply exists_file_In; auto|right].
    intros lin r t Ht. specialize (H1 t Ht). specialize (H2 t Ht). apply andb_prop in H1, H2. apply exists_file_In. destruct lin, r; tauto.
  - intros [[H1 H2]|H1]; [left|right].
    + split; [split|exact H2]; intros t Ht; now apply exists_file_In, H1.
    + split; intros t Ht; apply andb_true_intro; split; now apply exists_file_In, H1.
Qed.
(** The transition matrices of the slices were saved by an earlier run; this run shall also save the
    matrices between events: nothing is done. *)
Theorem C184_inter_refuted : ~ C184_statement.
Proof.
  intros H. destruct (H (mkOptions false true true true true [1%num]) (flat_map (fun lin => [Trans lin false 1%num; Trans lin true 1%num]) [false; true])) as [H1 _]; [now left|now left|].
  specialize (H1 eq_refl (Inter false 1%num) ltac:(cbn; auto) ltac:(discriminate)). cbn in H1. intuition discriminate.
Qed.
(** The other direction fails as well: if only one of the two kinds of matrices is asked for, a slice
    that is complete is not left out. *)
Theorem C184_one_kind_refuted : ~ (forall o d, o_expm o = true \/ o_lin o = true -> o_inter o = true \/ o_trans o = true ->
  (forall f, asked o f -> f <> Adjacency -> In f d) -> all_exist o d = true).
Proof.
  intros H. specialize (H (mkOptions false true false false true [1%num]) [Trans false false 1%num; Trans false true 1%num] ltac:(now left) ltac:(now right)).
  assert (E : false = true); [|discriminate E]. apply H. intros [|lin t|lin r t]; cbn; [discriminate|intros (E & _); discriminate E|].
  intros (_ & El & [<-|[]]) _. destruct lin; [discriminate El|]. destruct r; auto.
Qed.
(** Proved: a slice that is left out has all transition matrices that are asked for, and has all files
    if only one of the two sorts of files is asked for; a complete slice is left out if both kinds of
    matrices are asked for. *)
Theorem C184_skipped_partial : forall o d, all_exist o d = true ->
  (forall lin r t, asked o (Trans lin r t) -> In (Trans lin r t) d) /\
  (~ (forall lin r t, In t (o_taus o) -> In (Trans lin r t) d) -> forall f, asked o f -> f <> Adjacency -> In f d) /\
  (o_inter o = false -> forall f, asked o f -> f <> Adjacency -> In f d).
Proof.
  intros o d H. apply all_exist_spec in H. assert (HT : forall lin r t, asked o (Trans lin r t) -> In (Trans lin r t) d).
  { intros lin r t (H1 & _ & H2). destruct H as [[_ H]|H]; [congruence|]. now apply H. }
  split; [exact HT|]. split.
  - intros Hn [|lin t|lin r t] Ha Hf; [now destruct Hf| |now apply HT]. destruct H as [[H _]|H]; [|now destruct (Hn H)]. destruct Ha as (_ & _ & Ht). now apply H.
  - intros Hi [|lin t|lin r t] Ha Hf; [now destruct Hf| |now apply HT]. destruct Ha as (E & _). congruence.
Qed.
Theorem C184_complete_partial : forall o d, o_expm o = true -> o_lin o = true -> o_inter o = true \/ o_trans o = true ->
  (forall f, asked o f -> f <> Adjacency -> In f d) -> all_exist o d = true.
Proof.
  intros o d He Hl Ho H. apply all_exist_spec. destruct (o_trans o) eqn:Et.
  - right. intros lin r t Ht. apply H; [|discriminate]. cbn. rewrite He, Hl, Et. destruct lin; auto.
  - left. split; [|reflexivity]. destruct Ho as [Hi|Hi]; [|discriminate Hi]. intros lin t Ht. apply H; [|discriminate]. cbn. rewrite He, Hl, Hi. destruct lin; auto.
Qed.
Example C184_applies : let o := mkOptions false true true false true [1%num] in
  all_exist o [Trans false false 1%num; Trans false true 1%num; Trans true false 1%num] = false /\
  all_exist o [Trans false false 1%num; Trans false true 1%num; Trans true false 1%num; Trans true true 1%num] = true.
Proof. split; reflexivity. Qed.

Print Assumptions C131_rounding_refuted.
Print Assumptions C131_exact_partial.
Print Assumptions C131_length_partial.
Print Assumptions C132_batches.
Print Assumptions C133_last_batch_refuted.
Print Assumptions C133_sizes_partial.
Print Assumptions C133_dividing_partial.
Print Assumptions C134_overlap_refuted.
Print Assumptions C134_apart_partial.
Print Assumptions C135_products.
Print Assumptions C136_adjacencies.
Print Assumptions C137_verbose_refuted.
Print Assumptions C137_only_adjacency_partial.
Print Assumptions C184_inter_refuted.
Print Assumptions C184_one_kind_refuted.
Print Assumptions C184_skipped_partial.
Print Assumptions C184_complete_partial.
