(** Property C195: walks depend on the contacts around them only, not on contacts elsewhere or at other times. *)
From Coq Require Import Reals Qreals Lra Lia Permutation.
From Verif Require Import Base GapModel GapProofs LouvainModel EventsModel EventsSpec EventsProofs LaplacianProofs MergeProofs EventsProps
  TransModel TransSpec TransProps ExpModel ExpSpec ExpSeries ExpProps PeriodSpec PeriodProps PathSpec PathProps.
Local Open Scope R_scope.

(** ** A part of the nodes that is left by no step *)
(** [A] is a part of the nodes of two matrices of sizes [n] and [n'] *)
Section Part.
Context (n n' : nat) (A : nat -> bool) (HA : forall i, A i = true -> (i < n)%nat /\ (i < n')%nat).
Definition agree (F F' : rmat) : Prop :=
  (forall i j, A i = true -> A j = true -> F i j = F' i j) /\
  (forall i j, A i = true -> (j < n)%nat -> A j = false -> F i j = 0) /\ (forall i j, A i = true -> (j < n')%nat -> A j = false -> F' i j = 0).
Lemma rsum_longer m m' f : (m <= m')%nat -> (forall c, (m <= c)%nat -> f c = 0) -> rsum m' f = rsum m f.
Proof. intros Hm Hf. induction Hm as [|k Hk IH]; [reflexivity|]. rewrite rsum_S, IH, (Hf k Hk). lra. Qed.
Lemma rsum_part f f' : (forall c, A c = true -> f c = f' c) -> (forall c, (c < n)%nat -> A c = false -> f c = 0) -> (forall c, (c < n')%nat -> A c = false -> f' c = 0) -> rsum n f = rsum n' f'.
Proof.
  intros H1 H2 H3. set (g := fun c => if A c then f c else 0).
  assert (E1 : rsum n f = rsum n g) by (apply rsum_ext; intros c Hc; unfold g; destruct (A c) eqn:E; [reflexivity|now apply H2]).
  assert (E2 : rsum n' f' = rsum n' g) by (apply rsum_ext; intros c Hc; unfold g; destruct (A c) eqn:E; [symmetry; now apply H1|now apply H3]).
  rewrite E1, E2. rewrite <- (rsum_longer n (Nat.max n n') g), <- (rsum_longer n' (Nat.max n n') g); [reflexivity|lia| |lia|]; intros c Hc; unfold g; destruct (A c) eqn:E; try reflexivity; destruct (HA c E); lia.
Qed.
Lemma rsum_zero m f : (forall c, (c < m)%nat -> f c = 0) -> rsum m f = 0.
Proof. intros H. rewrite (rsum_ext m f (fun _ => 0) H), rsum_const. lra. Qed.
Lemma agree_times T T' G G' : agree T T' -> agree G G' -> agree (times_matrix n T G) (times_matrix n' T' G').
Proof.
  intros (T1 & T2 & T3) (G1 & G2 & G3). unfold times_matrix. split; [|split].
  - intros i j Hi Hj. apply rsum_part.
    + intros c Hc. now rewrite T1, G1.
    + intros c Hc E. rewrite T2 by assumption. ring.
    + intros c Hc E. rewrite T3 by assumption. ring.
  - intros i j Hi Hj E. apply rsum_zero. intros c Hc. destruct (A c) eqn:Ec; [rewrite (G2 c j) by assumption; ring|rewrite (T2 i c) by assumption; ring].
  - intros i j Hi Hj E. apply rsum_zero. intros c Hc. destruct (A c) eqn:Ec; [rewrite (G3 c j) by assumption; ring|rewrite (T3 i c) by assumption; ring].
Qed.
Lemma agree_eye : agree reye reye.
Proof. split; [reflexivity|]. split; intros i j Hi _ Hj; unfold reye; (destruct (Nat.eqb_spec i j) as [<-|_]; [congruence|reflexivity]). Qed.
Lemma agree_pow M M' : agree M M' -> forall k, agree (rpow n M k) (rpow n' M' k).
Proof. intros HM. induction k as [|k IH]; [apply agree_eye|]. exact (agree_times M M' _ _ HM IH). Qed.
Lemma sum_zero f l : (forall k : nat, f k = 0) -> infinite_sum f l -> l = 0.
Proof.
  intros Hf Hl. apply (uniqueness_sum f); [exact Hl|]. intros eps He. exists 0%nat. intros k _. assert (E : sum_f_R0 f k = 0) by (induction k as [|k IH]; cbn; rewrite ?IH, ?Hf; lra). rewrite E. unfold R_dist. rewrite Rminus_0_r, Rabs_R0. exact He.
Qed.
Lemma agree_expm M M' F F' : agree M M' -> expm n M F -> expm n' M' F' -> agree F F'.
Proof.
  intros HM HF HF'. pose proof (agree_pow M M' HM) as HP. split; [|split].
  - intros i j Hi Hj. destruct (HA i Hi) as [I1 I2]. destruct (HA j Hj) as [J1 J2]. apply (uniqueness_sum (fun k => rpow n M k i j / INR (fact k))); [now apply HF|].
    specialize (HF' i j I2 J2). intros eps He. destruct (HF' eps He) as [N0 HN0]. exists N0. intros k Hk. specialize (HN0 k Hk). rewrite (sum_eq _ (fun k => rpow n' M' k i j / INR (fact k)) k); [exact HN0|].
    intros m _. destruct (HP m) as (P1 & _). now rewrite P1.
  - intros i j Hi Hj E. destruct (HA i Hi) as [I1 I2]. apply (sum_zero (fun k => rpow n M k i j / INR (fact k))); [|now apply HF]. intros k. destruct (HP k) as (_ & P2 & _). rewrite P2 by assumption. unfold Rdiv. ring.
  - intros i j Hi Hj E. destruct (HA i Hi) as [I1 I2]. apply (sum_zero (fun k => rpow n' M' k i j / INR (fact k))); [|now apply HF']. intros k. destruct (HP k) as (_ & _ & P3). rewrite P3 by assumption. unfold Rdiv. ring.
Qed.
Lemma agree_inter x L L' F F' : (forall i j, A i = true -> A j = true -> L i j = L' i j) -> (forall i j, A i = true -> (j < n)%nat -> A j = false -> L i j = 0%num) -> (forall i j, A i = true -> (j < n')%nat -> A j = false -> L' i j = 0%num) ->
  inter_matrix n x L F -> inter_matrix n' x L' F' -> agree F F'.
Proof.
  intros H1 H2 H3 HF HF'. apply inter_expm in HF. apply inter_expm in HF'. refine (agree_expm _ _ F F' _ HF HF'). unfold scaled, toR. split; [|split].
  - intros i j Hi Hj. now rewrite H1.
  - intros i j Hi Hj E. rewrite H2, q2r_0 by assumption. ring.
  - intros i j Hi Hj E. rewrite H3, q2r_0 by assumption. ring.
Qed.
(** the rows of the part in two Laplacians *)
Lemma part_zero m (R : nat -> nat -> Prop) L i j : walk_laplacian m R L -> (i < m)%nat -> (j < m)%nat -> A i = true -> A j = false -> (forall j, R i j -> A j = true) -> L i j = 0%num.
Proof.
  intros HL Hi Hj Ai Aj HR. assert (Hne : i <> j) by (intros <-; congruence). pose proof (laplacian_entry m R L i j HL Hi Hj Hne) as HE. destruct (qeqb_spec (L i j) 0%num) as [E|E]; [exact E|]. apply HE, HR in E. congruence.
Qed.
Lemma part_same (R R' : nat -> nat -> Prop) L L' : walk_laplacian n R L -> walk_laplacian n' R' L' -> (forall i j, A i = true -> (R i j <-> R' i j) /\ (R i j -> A j = true)) ->
  forall i j, A i = true -> A j = true -> L i j = L' i j.
Proof.
  intros (a & Ha & HL) (a' & Ha' & HL') HR i j Ai Aj. destruct (HA i Ai) as [I1 I2]. destruct (HA j Aj) as [J1 J2]. rewrite HL, HL' by assumption.
  assert (EA : forall k, A k = true -> a i k = a' i k).
  { intros k Ak. destruct (HA k Ak) as [K1 K2]. apply Bool.eq_true_iff_eq. rewrite (Ha i k I1 K1), (Ha' i k I2 K2). now apply HR. }
  assert (ED : degree n a i = degree n' a' i).
  { unfold degree. apply Permutation_length, NoDup_Permutation; try (apply NoDup_filter, seq_NoDup). intros k. rewrite !filter_In, !in_seq. split; intros [Hk E].
    - assert (Ak : A k = true) by (apply (proj2 (HR i k Ai)), (Ha i k I1); [lia|exact E]). destruct (HA k Ak) as [K1 K2]. split; [lia|]. now rewrite <- EA.
    - assert (Ak : A k = true) by (apply (proj2 (HR i k Ai)), (proj1 (HR i k Ai)), (Ha' i k I2); [lia|exact E]). destruct (HA k Ak) as [K1 K2]. split; [lia|]. now rewrite EA. }
  unfold walk. now rewrite ED, (EA j Aj).
Qed.
Lemma agree_product lamda (C C' : num -> nat -> nat -> Prop) b : 0 <= lamda -> forall m ts ts' Ls Ls' T T' F F', (length ts + length ts' <= m)%nat ->
  (forall w i j, (hd 0 ts <= w)%num -> (w < b)%num -> A i = true -> (C w i j <-> C' w i j) /\ (C w i j -> A j = true)) ->
  fits n C ts Ls -> fits n' C' ts' Ls' -> hd 0%num ts = hd 0%num ts' -> last ts 0%num = b -> last ts' 0%num = b -> agree T T' ->
  multiplied n lamda T ts Ls F -> multiplied n' lamda T' ts' Ls' F' -> agree F F'.
Proof.
  intros Hl. induction m as [|m IH]; intros ts ts' Ls Ls' T T' F F' Hm HC HF HF' Hh Ht Ht' HT HM HM'.
  - destruct ts; [destruct Ls; contradiction|cbn in Hm; lia].
  - destruct ts as [|t [|u r]]; destruct Ls as [|L Ls]; try contradiction; destruct ts' as [|t' [|u' r']]; destruct Ls' as [|L' Ls']; try contradiction; cbn [hd] in Hh; subst t'.
    + cbn [multiplied] in HM, HM'. destruct HT as (T1 & T2 & T3). split; [|split].
      * intros i j Hi Hj. destruct (HA i Hi), (HA j Hj). rewrite HM, HM' by assumption. now apply T1.
      * intros i j Hi Hj E. destruct (HA i Hi). rewrite HM by assumption. now apply T2.
      * intros i j Hi Hj E. destruct (HA i Hi). rewrite HM' by assumption. now apply T3.
    + exfalso. destruct (steps_last n' C' _ _ HF') as [_ H]. specialize (H ltac:(cbn; lia)). rewrite Ht', <- Ht in H. cbn in H. qlra.
    + exfalso. destruct (steps_last n C _ _ HF) as [_ H]. specialize (H ltac:(cbn; lia)). rewrite Ht, <- Ht' in H. cbn in H. qlra.
    + destruct (steps_last n C _ _ HF) as [_ Htb]. specialize (Htb ltac:(cbn; lia)). rewrite Ht in Htb. cbn [hd] in Htb, HC.
      rewrite fits_step in HF, HF'. destruct HF as (H1 & H2 & H3 & H4). destruct HF' as (H1' & H2' & H3' & H4').
      assert (HCt : forall i j, A i = true -> (C t i j <-> C' t i j) /\ (C t i j -> A j = true)) by (intros i j Ai; apply HC; [apply Qcle_refl|exact Htb|exact Ai]).
      pose proof (H3 t (Qcle_refl _) H1) as W1. pose proof (H3' t (Qcle_refl _) H1') as W2.
      assert (EL : forall x G G', inter_matrix n x L G -> inter_matrix n' x L' G' -> agree G G').
      { intros x G G'. apply agree_inter; [exact (part_same (C t) (C' t) L L' W1 W2 HCt)| |].
        - intros i j Ai Hj Aj. destruct (HA i Ai). apply (part_zero n (C t)); auto. intros k. now apply HCt.
        - intros i j Ai Hj Aj. destruct (HA i Ai). apply (part_zero n' (C' t)); auto. intros k Hk. apply (HCt i k Ai). now apply (HCt i k Ai). }
      change (last (t :: u :: r) 0%num) with (last (u :: r) 0%num) in Ht. change (last (t :: u' :: r') 0%num) with (last (u' :: r') 0%num) in Ht'.
      destruct (Qc_dec u u') as [[Hu|Hu]|Hu].
      * destruct (cut_step n' lamda T' t u u' r' L' Ls' F' H2' Hl H1 Hu HM') as (G' & HG' & HM2). rewrite multiplied_step in HM. destruct HM as (G & HG & HM).
        apply (IH (u :: r) (u :: u' :: r') Ls (L' :: Ls') (times_matrix n T G) (times_matrix n' T' G') F F'); auto; [cbn in *; lia|intros w i j Hw; cbn [hd] in Hw; apply HC; qlra| |apply agree_times; [exact HT|exact (EL _ G G' HG HG')]].
        rewrite fits_step. split; [exact Hu|]. split; [exact H2'|]. split; [|exact H4']. intros w Hw1 Hw2. apply H3'; [qlra|exact Hw2].
      * destruct (cut_step n lamda T t u' u r L Ls F H2 Hl H1' Hu HM) as (G & HG & HM2). rewrite multiplied_step in HM'. destruct HM' as (G' & HG' & HM').
        apply (IH (u' :: u :: r) (u' :: r') (L :: Ls) Ls' (times_matrix n T G) (times_matrix n' T' G') F F'); auto; [cbn in *; lia|intros w i j Hw; cbn [hd] in Hw; apply HC; qlra| |apply agree_times; [exact HT|exact (EL _ G G' HG HG')]].
        rewrite fits_step. split; [exact Hu|]. split; [exact H2|]. split; [|exact H4]. intros w Hw1 Hw2. apply H3; [qlra|exact Hw2].
      * subst u'. rewrite multiplied_step in HM, HM'. destruct HM as (G & HG & HM). destruct HM' as (G' & HG' & HM').
        apply (IH (u :: r) (u :: r') Ls Ls' (times_matrix n T G) (times_matrix n' T' G') F F'); auto; [cbn in *; lia|intros w i j Hw; cbn [hd] in Hw; apply HC; qlra|apply agree_times; [exact HT|exact (EL _ G G' HG HG')]].
Qed.
End Part.

(** * C195 *)
Theorem C195_elsewhere : forall fuel fuel' srcs tgts starts ends srcs' tgts' starts' ends' N N' g g' a b (A : nat -> bool),
  make_net fuel true false srcs tgts starts ends = Some N -> make_net fuel' true false srcs' tgts' starts' ends' = Some N' ->
  rows N <> [] -> ids_ok N = true -> no_self_contact (rows N) -> lasting (rows N) -> no_overlap (rows N) -> is_time_grid (rows N) g ->
  rows N' <> [] -> ids_ok N' = true -> no_self_contact (rows N') -> lasting (rows N') -> no_overlap (rows N') -> is_time_grid (rows N') g' ->
  (* a window that begins and ends at times of both networks *)
  In a (times (rows N)) -> In a (times (rows N')) -> In b (times (rows N)) -> In b (times (rows N')) -> (a <= b)%num ->
  (* a part of the nodes of both networks which has the same contacts in both during the window, and only contacts inside the part *)
  (forall i, A i = true -> (i < num_nodes_of N)%nat /\ (i < num_nodes_of N')%nat) ->
  (forall i j u, A i = true -> (a <= u)%num -> (u < b)%num -> (contact (rows N) i j u <-> contact (rows N') i j u) /\ (contact (rows N) i j u -> A j = true)) ->
  exists ka kb Ls ka' kb' Ls', compute_laplacians N g (Some a) (Some b) = Some (ka, kb, Ls) /\ compute_laplacians N' g' (Some a) (Some b) = Some (ka', kb', Ls') /\
    forall lamda, 0 <= lamda ->
      (exists F, multiplied (num_nodes_of N) lamda reye (between (times (rows N)) ka kb) Ls F) /\
      (exists F', multiplied (num_nodes_of N') lamda reye (between (times (rows N')) ka' kb') Ls' F') /\
      forall F F', multiplied (num_nodes_of N) lamda reye (between (times (rows N)) ka kb) Ls F -> multiplied (num_nodes_of N') lamda reye (between (times (rows N')) ka' kb') Ls' F' ->
        (forall i j, A i = true -> A j = true -> F i j = F' i j) /\
        (forall i j, A i = true -> (j < num_nodes_of N)%nat -> A j = false -> F i j = 0).
Proof.
  intros fuel fuel' srcs tgts starts ends srcs' tgts' starts' ends' N N' g g' a b A HN HN' Hne Hids Hself HL HV HG Hne' Hids' Hself' HL' HV' HG' Ia Ia' Ib Ib' Hab HA HC.
  assert (HR : right_laplacians N g) by (intros a0 b0; exact (C34_laplacians fuel srcs tgts starts ends N g a0 b0 HN Hne Hids Hself HL HV HG)).
  assert (HR' : right_laplacians N' g') by (intros a0 b0; exact (C34_laplacians fuel' srcs' tgts' starts' ends' N' g' a0 b0 HN' Hne' Hids' Hself' HL' HV' HG')).
  destruct (HR (Some a) (Some b)) as (ka & kb & Ls & E & Sa & Sb & Hlen & La & Lb & _). destruct (HR' (Some a) (Some b)) as (ka' & kb' & Ls' & E' & Sa' & Sb' & Hlen' & La' & Lb' & _).
  assert (HS := times_sorted (rows N)). assert (HS' := times_sorted (rows N')).
  pose proof (index_time _ a ka HS La Ia Sa) as Ea. pose proof (index_time _ a ka' HS' La' Ia' Sa') as Ea'. pose proof (index_time _ b kb HS Lb Ib Sb) as Eb. pose proof (index_time _ b kb' HS' Lb' Ib' Sb') as Eb'.
  assert (Hk : (ka <= kb)%nat) by (destruct (Nat.le_gt_cases ka kb) as [|H]; [assumption|]; pose proof (qsorted_nth _ kb ka 0%num HS H La) as H1; rewrite Ea, Eb in H1; qlra).
  assert (Hk' : (ka' <= kb')%nat) by (destruct (Nat.le_gt_cases ka' kb') as [|H]; [assumption|]; pose proof (qsorted_nth _ kb' ka' 0%num HS' H La') as H1; rewrite Ea', Eb' in H1; qlra).
  exists ka, kb, Ls, ka', kb', Ls'. split; [exact E|]. split; [exact E'|]. intros lamda Hl.
  pose proof (network_fits N g _ _ ka kb Ls HR Hself E Hk) as HF. pose proof (network_fits N' g' _ _ ka' kb' Ls' HR' Hself' E' Hk') as HF'.
  split; [exact (product_exists _ _ _ Hl _ _ _ HF)|]. split; [exact (product_exists _ _ _ Hl _ _ _ HF')|]. intros F F' HM HM'.
  destruct (between_ends _ _ _ Hk Lb) as [B1 B2]. destruct (between_ends _ _ _ Hk' Lb') as [B1' B2'].
  assert (HCw : forall w i j, (hd 0 (between (times (rows N)) ka kb) <= w)%num -> (w < b)%num -> A i = true -> (contact (rows N) i j w <-> contact (rows N') i j w) /\ (contact (rows N) i j w -> A j = true)).
  { intros w i j H1 H2 Ai. rewrite B1, Ea in H1. exact (HC i j w Ai H1 H2). }
  destruct (agree_product (num_nodes_of N) (num_nodes_of N') A HA lamda _ _ b Hl _ _ _ Ls Ls' reye reye F F' (le_n _) HCw HF HF' ltac:(congruence) ltac:(congruence) ltac:(congruence) (agree_eye (num_nodes_of N) (num_nodes_of N') A) HM HM') as (P1 & P2 & _).
  now split.
Qed.
(* 0 and 1 are in contact from 0 to 2; in one network 2 and 3 meet meanwhile, in the other one 0 meets 2 afterwards *)
Definition meanwhile : net := mkNet [(0%nat, ev 0 1 0 2); (1%nat, ev 2 3 1 3)] [0; 1; 2; 3]%nat.
Definition afterwards : net := mkNet [(0%nat, ev 0 1 0 2); (1%nat, ev 0 2 2 3)] [0; 1; 2]%nat.
Definition pair01 (i : nat) : bool := (i <? 2)%nat.
Example C195_applies : make_net 0 true false [0; 2]%nat [1; 3]%nat [qn 0; qn 1] [qn 2; qn 3] = Some meanwhile /\ make_net 0 true false [0; 0]%nat [1; 2]%nat [qn 0; qn 2] [qn 2; qn 3] = Some afterwards /\
  (forall N, N = meanwhile \/ N = afterwards -> ids_ok N = true /\ no_self_contact (rows N) /\ lasting (rows N) /\ no_overlap (rows N) /\ is_time_grid (rows N) (sorted_grid (rows N)) /\ In (qn 0) (times (rows N)) /\ In (qn 2) (times (rows N)) /\ forall i, pair01 i = true -> (i < num_nodes_of N)%nat) /\
  (forall i j u, pair01 i = true -> (qn 0 <= u)%num -> (u < qn 2)%num -> (contact (rows meanwhile) i j u <-> contact (rows afterwards) i j u) /\ (contact (rows meanwhile) i j u -> pair01 j = true)).
Proof.
  split; [reflexivity|]. split; [reflexivity|]. split.
  - assert (HP : forall i, pair01 i = true -> (i < 2)%nat) by (intros i H; now apply Nat.ltb_lt).
    intros N [->| ->]; (split; [reflexivity|]); (split; [intros e; in_cases; cbn; lia|]); (split; [intros e; in_cases; vm_compute; reflexivity|]); (split; [|split; [apply grid_exists|split; [apply times_in; exists (ev 0 1 0 2); split; [now left|now left]|split; [apply times_in; exists (ev 0 1 0 2); split; [now left|now right]|intros i Hi; apply HP in Hi; cbn; lia]]]]);
    intros x y e f i j He Hf Hxy J1 J2; cbn in He, Hf; destruct He as [He|[He|[]]], Hf as [Hf|[Hf|[]]]; injection He as <- <-; injection Hf as <- <-; try congruence; unfold joins in J1, J2; cbn in J1, J2; lia.
  - intros i j u Hi H1 H2. unfold pair01 in Hi. apply Nat.ltb_lt in Hi. split; [split|]; intros (e & He & HJ & HA); cbn [meanwhile afterwards rows map snd In] in He; destruct He as [<-|[<-|[]]]; unfold joins in HJ; cbn [ev e_src e_tgt] in HJ.
    + exists (ev 0 1 0 2). split; [now left|now split].
    + lia.
    + exists (ev 0 1 0 2). split; [now left|now split].
    + destruct HA as [HA _]. cbn [ev e_start] in HA. qlra.
    + unfold pair01. apply Nat.ltb_lt. lia.
    + lia.
Qed.

Print Assumptions C195_elsewhere.
