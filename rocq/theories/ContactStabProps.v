(** Property C210: which partitions have the largest stability under the flow of a network. *)
From Coq Require Import Reals Qreals Lra Lia.
From Verif Require Import Base PartitionModel PartitionSpec PartitionProofs GapModel LouvainModel LouvainProofs SparseModel EventsModel EventsSpec LaplacianProofs MergeProofs EventsProps TransModel TransSpec MatProofs
  FlowModel FlowSpec FlowProofs FlowStabProps JoinEndProps MeetProofs ExpModel ExpSpec ExpSeries ExpProps PeriodSpec PeriodProps PathSpec PathProps.

(** ** Specification *)
(** the matrices of the flow: probabilities that are positive where the exact exponentials of the
    Laplacians [Ls] over the times [ts] are *)
Definition same_support (n : nat) (M : mat) (F : rmat) : Prop := forall i j, i < n -> j < n -> ((0 < M i j)%num <-> (0 < F i j)%R).
Fixpoint computed (n : nat) (lamda : R) (ts : list num) (Ls Ms : list mat) : Prop :=
  match ts, Ls, Ms with
  | [_], [], [] => True
  | t :: (u :: _) as r, L :: Ls, M :: Ms =>
      stochastic n M /\ (exists F, inter_matrix n (q2r (u - t)%num * lamda)%R L F /\ same_support n M F) /\ computed n lamda r Ls Ms
  | _, _, _ => False
  end.
(** no contact of the window joins two clusters *)
Definition contacts_inside (t : table) (a b : num) (q : partition) : Prop :=
  forall i j u, (a <= u)%num -> (u < b)%num -> contact t i j u -> together q i j.

(** ** One step, all steps *)
Lemma computed_step n lamda t u r L Ls M Ms : computed n lamda (t :: u :: r) (L :: Ls) (M :: Ms) =
  (stochastic n M /\ (exists F, inter_matrix n (q2r (u - t)%num * lamda)%R L F /\ same_support n M F) /\ computed n lamda (u :: r) Ls Ms).
Proof. reflexivity. Qed.
Lemma step_reaches n lamda (t u : num) L M F : (0 < lamda)%R -> (t < u)%num -> walk_like n L -> inter_matrix n (q2r (u - t)%num * lamda)%R L F -> same_support n M F ->
  forall i j, i < n -> j < n -> ((0 < M i j)%num <-> reaches n (fun a b => L a b <> 0%num) i j).
Proof.
  intros Hl Htu HL HF HM i j Hi Hj. assert (Hx : (0 < q2r (u - t)%num * lamda)%R) by (apply Rmult_lt_0_compat; [rewrite <- q2r_0; apply q2r_lt; qlra|exact Hl]).
  destruct (C156_walk n L (q2r (u - t)%num * lamda)%R HL (Rlt_le _ _ Hx)) as [_ HW]. destruct (HW F HF) as (_ & _ & HR & _).
  rewrite (HM i j Hi Hj). exact (HR Hx i j Hi Hj).
Qed.
Lemma computed_facts n lamda (C : num -> nat -> nat -> Prop) : (0 < lamda)%R -> (forall w a b, C w a b -> a < n /\ b < n) -> forall ts Ls Ms, fits n C ts Ls -> computed n lamda ts Ls Ms ->
  length ts = S (length Ms) /\ (forall M, In M Ms -> stochastic n M /\ forall i, i < n -> (0 < M i i)%num) /\
  (forall w i j, (hd 0 ts <= w)%num -> (w < last ts 0)%num -> C w i j -> i <> j -> exists M, In M Ms /\ (0 < M i j)%num) /\
  (forall M, In M Ms -> forall i j, i < n -> j < n -> (0 < M i j)%num -> forall R : nat -> nat -> Prop, (forall x, R x x) -> (forall x y z, R x y -> R y z -> R x z) ->
     (forall w a b, (hd 0 ts <= w)%num -> (w < last ts 0)%num -> C w a b -> R a b) -> R i j).
Proof.
  intros Hl HC. induction ts as [|t [|u r] IH]; intros Ls Ms HF HM; [destruct HF| |].
  - destruct Ls; [|destruct HF]. destruct Ms; [|destruct HM]. split; [reflexivity|]. split; [intros M []|]. split; [|intros M []].
    intros w i j H1 H2. exfalso. cbn in H1, H2. qlra.
  - destruct Ls as [|L Ls]; [destruct HF|]. destruct Ms as [|M Ms]; [destruct HM|]. rewrite fits_step in HF. destruct HF as (Htu & HLk & HLC & HF).
    rewrite computed_step in HM. destruct HM as (HS & (F & HE & HP) & HM). destruct (IH Ls Ms HF HM) as (IH1 & IH2 & IH3 & IH4).
    assert (HR := step_reaches n lamda t u L M F Hl Htu HLk HE HP). destruct (steps_last n C (u :: r) Ls HF) as [Hlast _]. cbn [hd] in *.
    change (last (t :: u :: r) 0%num) with (last (u :: r) 0%num). set (b := last (u :: r) 0%num) in *.
    split; [cbn [length] in *; congruence|]. split; [|split].
    + intros N [<-|HN]; [|now apply IH2]. split; [exact HS|]. intros i Hi. apply (HR i i Hi Hi). now constructor.
    + intros w i j H1 H2 Hc Hne. destruct (HC w i j Hc) as [Hi Hj]. destruct (qltb_spec w u) as [Hw|Hw].
      * exists M. split; [now left|]. apply (HR i j Hi Hj). eapply reaches_step; [exact Hi|exact Hj| |now constructor].
        apply (laplacian_entry n (C w) L i j); [now apply HLC|exact Hi|exact Hj|exact Hne|exact Hc].
      * apply Qcnot_lt_le in Hw. destruct (IH3 w i j Hw H2 Hc Hne) as (N & HN & HP'). exists N. split; [now right|exact HP'].
    + intros N [<-|HN] i j Hi Hj Hpos R Rr Rt HRC.
      * apply (HR i j Hi Hj) in Hpos. clear Hi Hj. induction Hpos as [a Ha|a c e Ha Hc Hac Hce IHr]; [apply Rr|]. apply Rt with c; [|exact IHr].
        destruct (Nat.eq_dec a c) as [->|Hne]; [apply Rr|]. apply (HRC t a c); [apply Qcle_refl|qlra|].
        apply (laplacian_entry n (C t) L a c); [apply HLC; [apply Qcle_refl|exact Htu]|exact Ha|exact Hc|exact Hne|exact Hac].
      * apply (IH4 N HN i j Hi Hj Hpos R Rr Rt). intros w x y H1 H2 Hc. apply (HRC w x y); [qlra|exact H2|exact Hc].
Qed.

(** ** Products *)
Lemma sumN_term n f k : k < n -> (forall i, i < n -> (0 <= f i)%num) -> (0 < f k)%num -> (0 < sumN n f)%num.
Proof.
  intros Hk H0 Hf. apply Qclt_le_trans with (f k); [exact Hf|]. apply (sumL_nonneg_term f); [|now apply seq_In_iff]. intros a Ha. apply H0. now apply seq_In_iff in Ha.
Qed.
Lemma chain_diag n l : (forall M, In M l -> stochastic n M /\ forall i, i < n -> (0 < M i i)%num) -> forall i, i < n -> (0 < chain n l i i)%num.
Proof.
  induction l as [|M l IH]; intros H i Hi; [cbn; unfold ident; rewrite Nat.eqb_refl; reflexivity|].
  change (0 < sumN n (fun k => M i k * chain n l k i))%num. destruct (H M (or_introl eq_refl)) as [[M0 _] HD].
  assert (HC : stochastic n (chain n l)) by (apply stochastic_chain; intros B HB; now apply H; right). destruct HC as [C0 _].
  apply (sumN_term n _ i Hi).
  - intros k Hk. apply qmult_nonneg; [now apply M0|now apply C0].
  - apply qmult_pos; [now apply HD|]. apply IH; [|exact Hi]. intros B HB. apply H. now right.
Qed.
Lemma chain_link n l : (forall M, In M l -> stochastic n M /\ forall i, i < n -> (0 < M i i)%num) -> forall M i j, In M l -> i < n -> j < n -> (0 < M i j)%num -> (0 < chain n l i j)%num.
Proof.
  induction l as [|B l IH]; intros H M i j HM Hi Hj Hp; [destruct HM|].
  change (0 < sumN n (fun k => B i k * chain n l k j))%num. destruct (H B (or_introl eq_refl)) as [[B0 _] HD].
  assert (Hl : forall M, In M l -> stochastic n M /\ forall i, i < n -> (0 < M i i)%num) by (intros N HN; apply H; now right).
  assert (HC : stochastic n (chain n l)) by (apply stochastic_chain; intros N HN; now apply Hl). destruct HC as [C0 _].
  assert (H0 : forall k, k < n -> (0 <= B i k * chain n l k j)%num) by (intros k Hk; apply qmult_nonneg; [now apply B0|now apply C0]).
  destruct HM as [->|HM].
  - apply (sumN_term n _ j Hj H0). apply qmult_pos; [exact Hp|now apply chain_diag].
  - apply (sumN_term n _ i Hi H0). apply qmult_pos; [now apply HD|now apply (IH Hl M i j)].
Qed.

(** ** The stability of the flow *)
Lemma fits_increasing n C ts : forall Ls, fits n C ts Ls -> increasing ts.
Proof.
  induction ts as [|t [|u r] IH]; intros Ls HF; [destruct HF| |].
  - intros a b H1 H2. cbn in H2. lia.
  - destruct Ls as [|L Ls]; [destruct HF|]. rewrite fits_step in HF. destruct HF as (Htu & _ & _ & HF). specialize (IH Ls HF).
    intros a b H1 H2. destruct b as [|b]; [lia|]. destruct a as [|a].
    + cbn [nth]. destruct b as [|b]; [exact Htu|]. assert (H : (nth 0 (u :: r) 0 < nth (S b) (u :: r) 0)%num) by (apply IH; [lia|cbn [length] in *; lia]). cbn [nth] in *. qlra.
    + apply (IH a b); [lia|cbn [length] in *; lia].
Qed.
Lemma largest_stability n lamda (C : num -> nat -> nat -> Prop) ts Ls Ms kd p1 r rtol F q A : (0 < lamda)%R -> (forall w a b, C w a b -> a < n /\ b < n) -> fits n C ts Ls -> computed n lamda ts Ls Ms ->
  Ms <> [] -> exact kd rtol -> distribution_ok n p1 -> (forall i, i < n -> the_distribution n p1 i <> 0%num) ->
  flow_integral n kd None (Some Ms) p1 (Some ts) None r rtol = Some F -> valid q -> num_nodes q = n -> In A (f_I F) ->
  (compute_stability A q = heterogeneity (the_distribution n p1) q <->
   forall w i j, (hd 0 ts <= w)%num -> (w < last ts 0)%num -> C w i j -> together q i j).
Proof.
  intros Hl HC HF HM Hne He Hp Hpos HI Hq Hn HA. destruct (computed_facts n lamda C Hl HC ts Ls Ms HF HM) as (K1 & K2 & K3 & K4).
  assert (Ho : forall M, In M (in_order r Ms) <-> In M Ms) by (intros M; unfold in_order; destruct r; [symmetry; apply in_rev|reflexivity]).
  assert (HS : all_stochastic n None (Some Ms)) by (intros B HB; now apply K2).
  assert (HL : length (flow_times None (Some Ms) (Some ts) r) = S (length (given None (Some Ms)))).
  { unfold flow_times, given, the_times. destruct r; [rewrite rev_length|]; exact K1. }
  rewrite (C187_reached n kd None (Some Ms) p1 (Some ts) r rtol F q A He Hp (fits_increasing n C ts Ls HF) HS HI HL Hq Hn HA). unfold flow_transition, transition, given.
  assert (Hlen : length (in_order r Ms) = length Ms) by (unfold in_order; destruct r; [apply rev_length|reflexivity]). split.
  - intros H w i j H1 H2 Hc. destruct (HC w i j Hc) as [Hi Hj]. destruct (Nat.eq_dec i j) as [<-|Hij]; [apply (valid_self q i Hq); now rewrite Hn|].
    destruct (K3 w i j H1 H2 Hc Hij) as (M & HMi & HMp). assert (Hm : length Ms - 1 < length Ms) by (destruct Ms; [now elim Hne|cbn; lia]).
    specialize (H (length Ms - 1) Hm i j j Hi Hj Hj). assert (Hall : firstn (S (length Ms - 1)) (in_order r Ms) = in_order r Ms) by (apply firstn_all2; rewrite Hlen; apply Nat.le_trans with (length Ms); [apply Nat.le_refl|lia]). rewrite Hall in H. clear Hall.
    assert (K2' : forall M, In M (in_order r Ms) -> stochastic n M /\ forall i, i < n -> (0 < M i i)%num) by (intros B HB; apply K2; now apply Ho).
    apply H.
    + intros Z. apply Qcmult_integral in Z. destruct Z as [Z|Z]; [now apply (Hpos i Hi)|].
      assert (G := chain_link n _ K2' M i j (proj2 (Ho M) HMi) Hi Hj HMp). rewrite Z in G. now apply (Qclt_not_le _ _ G), Qcle_refl.
    + intros Z. apply Qcmult_integral in Z. destruct Z as [Z|Z]; [now apply (Hpos j Hj)|].
      assert (G := chain_diag n _ K2' j Hj). rewrite Z in G. now apply (Qclt_not_le _ _ G), Qcle_refl.
  - intros H k Hk i j x Hi Hj Hx Ni Nj.
    set (R := fun a b => a = b \/ together q a b).
    assert (HR : forall a b, a < n -> b < n -> chain n (firstn (S k) (in_order r Ms)) a b <> 0%num -> R a b).
    { apply chain_within.
      - intros a. now left.
      - intros a b c [->|Hab] [->|Hbc]; [now left|now right|now right|]. right. now apply (together_trans q a b c Hq).
      - intros B HB a b Ha Hb Hnz. assert (HB' : In B Ms) by (apply Ho; rewrite <- (firstn_skipn (S k)); apply in_or_app; now left).
        apply (K4 B HB' a b Ha Hb).
        + destruct (qle_lt_or_eq _ _ (proj1 (proj1 (K2 B HB')) a b Ha Hb)) as [L|L]; [exact L|]. now elim Hnz.
        + intros c. now left.
        + intros c d e [->|H1] [->|H2]; [now left|now right|now right|]. right. now apply (together_trans q c d e Hq).
        + intros w c d H1 H2 Hc. right. now apply (H w). }
    assert (R1 : R i x). { apply HR; [exact Hi|exact Hx|]. intros Z. apply Ni. rewrite Z. ring. }
    assert (R2 : R j x). { apply HR; [exact Hj|exact Hx|]. intros Z. apply Nj. rewrite Z. ring. }
    destruct R1 as [->|R1], R2 as [->|R2].
    + apply (valid_self q x Hq). now rewrite Hn.
    + destruct R2 as (c & A1 & A2). now exists c.
    + exact R1.
    + apply (together_trans q i x j Hq R1). destruct R2 as (c & A1 & A2). now exists c.
Qed.

(** * C210: a partition has the largest possible stability under the flow of a window, exactly when no
    contact of the window joins two of its clusters *)
Lemma network_largest N g a b ka kb Ls : right_laplacians N g -> no_self_contact (rows N) -> ids_ok N = true -> compute_laplacians N g a b = Some (ka, kb, Ls) -> ka < kb ->
  forall lamda Ms kd p1 r rtol F q A, (0 < lamda)%R -> computed (num_nodes_of N) lamda (between (times (rows N)) ka kb) Ls Ms ->
    exact kd rtol -> distribution_ok (num_nodes_of N) p1 -> (forall i, i < num_nodes_of N -> the_distribution (num_nodes_of N) p1 i <> 0%num) ->
    flow_integral (num_nodes_of N) kd None (Some Ms) p1 (Some (between (times (rows N)) ka kb)) None r rtol = Some F ->
    valid q -> num_nodes q = num_nodes_of N -> In A (f_I F) ->
    (compute_stability A q = heterogeneity (the_distribution (num_nodes_of N) p1) q <->
     contacts_inside (rows N) (nth ka (times (rows N)) 0%num) (nth kb (times (rows N)) 0%num) q).
Proof.
  intros HR Hself Hids E Hk lamda Ms kd p1 r rtol F q A Hl HM He Hp Hpos HI Hq Hn HA.
  pose proof (network_fits N g a b ka kb Ls HR Hself E (Nat.lt_le_incl _ _ Hk)) as HF.
  destruct (HR a b) as (ka' & kb' & Ls' & E' & _ & _ & Hlen & La & Lb & _). rewrite E in E'. injection E' as <- <- <-.
  destruct (between_ends (times (rows N)) ka kb (Nat.lt_le_incl _ _ Hk) Lb) as [B1 B2].
  assert (HC : forall w a b, (fun u i j => contact (rows N) i j u) w a b -> a < num_nodes_of N /\ b < num_nodes_of N).
  { intros w x y (e & He' & HJ & _). destruct (proj1 (ids_ok_spec N) Hids e He'). destruct HJ as [[<- <-]|[<- <-]]; now split. }
  assert (Hne : Ms <> []).
  { intros ->. destruct (computed_facts _ lamda _ Hl HC _ _ _ HF HM) as (K1 & _). rewrite (between_length _ _ _ (Nat.lt_le_incl _ _ Hk) Lb) in K1. cbn in K1. lia. }
  rewrite (largest_stability _ lamda _ _ Ls Ms kd p1 r rtol F q A Hl HC HF HM Hne He Hp Hpos HI Hq Hn HA). rewrite B1, B2. unfold contacts_inside.
  split; intros H; intros; eapply H; eassumption.
Qed.
Theorem C210_contacts : forall fuel srcs tgts starts ends N g a b ka kb Ls lamda Ms kd p1 r rtol F q A, make_net fuel true false srcs tgts starts ends = Some N ->
  rows N <> [] -> ids_ok N = true -> no_self_contact (rows N) -> lasting (rows N) -> no_overlap (rows N) -> is_time_grid (rows N) g ->
  compute_laplacians N g a b = Some (ka, kb, Ls) -> ka < kb -> (0 < lamda)%R -> computed (num_nodes_of N) lamda (between (times (rows N)) ka kb) Ls Ms ->
  exact kd rtol -> distribution_ok (num_nodes_of N) p1 -> (forall i, i < num_nodes_of N -> the_distribution (num_nodes_of N) p1 i <> 0%num) ->
  flow_integral (num_nodes_of N) kd None (Some Ms) p1 (Some (between (times (rows N)) ka kb)) None r rtol = Some F ->
  valid q -> num_nodes q = num_nodes_of N -> In A (f_I F) ->
  (compute_stability A q = heterogeneity (the_distribution (num_nodes_of N) p1) q <->
   contacts_inside (rows N) (nth ka (times (rows N)) 0%num) (nth kb (times (rows N)) 0%num) q).
Proof.
  intros fuel srcs tgts starts ends N g a b ka kb Ls lamda Ms kd p1 r rtol F q A HN Hne Hids Hself HL HV HG E Hk Hl HM He Hp Hpos HI Hq Hn HA.
  refine (network_largest N g a b ka kb Ls _ Hself Hids E Hk lamda Ms kd p1 r rtol F q A Hl HM He Hp Hpos HI Hq Hn HA).
  intros a0 b0. exact (C34_laplacians fuel srcs tgts starts ends N g a0 b0 HN Hne Hids Hself HL HV HG).
Qed.
Print Assumptions C210_contacts.
(** the same for merged networks, whose overlaps were simple: the contacts of the events as they were given *)
Theorem C210_merged : forall fuel srcs tgts starts ends N0 N g a b ka kb Ls lamda Ms kd p1 r rtol F q A,
  make_net 0 true false srcs tgts starts ends = Some N0 -> make_net fuel true true srcs tgts starts ends = Some N ->
  rows N0 <> [] -> ids_ok N0 = true -> no_self_contact (rows N0) -> lasting (rows N0) -> simple_overlaps (rows N0) -> is_time_grid (rows N) g ->
  compute_laplacians N g a b = Some (ka, kb, Ls) -> ka < kb -> (0 < lamda)%R -> computed (num_nodes_of N) lamda (between (times (rows N)) ka kb) Ls Ms ->
  exact kd rtol -> distribution_ok (num_nodes_of N) p1 -> (forall i, i < num_nodes_of N -> the_distribution (num_nodes_of N) p1 i <> 0%num) ->
  flow_integral (num_nodes_of N) kd None (Some Ms) p1 (Some (between (times (rows N)) ka kb)) None r rtol = Some F ->
  valid q -> num_nodes q = num_nodes_of N -> In A (f_I F) ->
  (compute_stability A q = heterogeneity (the_distribution (num_nodes_of N) p1) q <->
   contacts_inside (rows N0) (nth ka (times (rows N)) 0%num) (nth kb (times (rows N)) 0%num) q).
Proof.
  intros fuel srcs tgts starts ends N0 N g a b ka kb Ls lamda Ms kd p1 r rtol F q A HN0 HMg Hne Hids Hself HL HSO HG E Hk Hl HM He Hp Hpos HI Hq Hn HA.
  assert (HOrd : ordered (rows N0)) by (intros e He'; specialize (HL e He'); qlra).
  destruct (proj2 (C37_sound_partial srcs tgts starts ends N0 HN0 Hids HOrd) fuel N HMg) as (EN & Hids1 & HV1 & HC1 & HT1 & HC2). specialize (HC2 HL HSO).
  assert (Hself1 : no_self_contact (rows N)) by (intros e He'; destruct (HT1 e He') as (f & Hf & -> & -> & _); now apply Hself).
  assert (Hne1 : rows N <> []).
  { intros E0. destruct (rows N0) as [|[k e] t]; [now apply Hne|]. destruct (HC2 (e_src e) (e_tgt e) (e_start e)) as (f & Hf & _); [exists e; split; [now left|]; split; [left; now split|]; split; [apply Qcle_refl|apply HL; now left]|]. rewrite E0 in Hf. destruct Hf. }
  assert (HR : right_laplacians N g) by (intros a0 b0; exact (C34_merged fuel srcs tgts starts ends N0 N g a0 b0 HN0 Hids Hself HL HMg Hne1 HG)).
  rewrite (network_largest N g a b ka kb Ls HR Hself1 Hids1 E Hk lamda Ms kd p1 r rtol F q A Hl HM He Hp Hpos HI Hq Hn HA).
  split; intros H i j u H1 H2 Hc; apply (H i j u H1 H2); [now apply HC2|now apply HC1].
Qed.
Print Assumptions C210_merged.

(** Three nodes that meet one after the other (C194); matrices with the supports of the exponentials. *)
Lemma support_of_classes n L lamda (t u : num) M (cls : nat -> nat) : (0 < lamda)%R -> (t < u)%num -> walk_like n L ->
  (forall i j, i < n -> j < n -> ((0 < M i j)%num <-> cls i = cls j)) -> (forall i j, i < n -> j < n -> L i j <> 0%num -> cls i = cls j) ->
  (forall i j, i < n -> j < n -> i <> j -> cls i = cls j -> L i j <> 0%num) ->
  exists F, inter_matrix n (q2r (u - t)%num * lamda)%R L F /\ same_support n M F.
Proof.
  intros Hl Htu HL HM H1 H2. assert (Hx : (0 < q2r (u - t)%num * lamda)%R) by (apply Rmult_lt_0_compat; [rewrite <- q2r_0; apply q2r_lt; qlra|exact Hl]).
  destruct (C156_walk n L _ HL (Rlt_le _ _ Hx)) as [[F HF] HW]. exists F. split; [exact HF|]. destruct (HW F HF) as (_ & _ & HR & _). specialize (HR Hx).
  intros i j Hi Hj. rewrite (HM i j Hi Hj), (HR i j Hi Hj). split.
  - intros E. destruct (Nat.eq_dec i j) as [<-|Hne]; [now constructor|]. eapply reaches_step; [exact Hi|exact Hj|now apply H2|now constructor].
  - intros H. clear Hi Hj. induction H as [a Ha|a b c Ha Hb Hab Hbc IH]; [reflexivity|]. rewrite <- IH. now apply H1.
Qed.
Definition cls01 (i : nat) : nat := match i with 2 => 1 | _ => 0 end.
Definition cls12 (i : nat) : nat := match i with 0 => 0 | _ => 1 end.
(* half of the walkers of each node of the pair are at the other node *)
Definition mixed (a b : nat) : mat := fun i j => if (i =? a) || (i =? b) then (if (j =? a) || (j =? b) then qf 1 2 else 0%num) else ident i j.
Definition laps210 : list mat := match compute_laplacians later (sorted_grid (rows later)) None None with Some (_, _, l) => l | None => [] end.
Definition mats210 : list mat := [mixed 0 1; ident; mixed 1 2].
Definition flow210 := flow_integral 3 Dense None (Some mats210) None (Some (between (times (rows later)) 0 3)) None false None.
Ltac below3 i H := destruct i as [|[|[|i]]]; [| | |exfalso; lia].
Lemma laps210_eq : laps210 = [nth 0 laps210 ident; nth 1 laps210 ident; nth 2 laps210 ident].
Proof. assert (E : length laps210 = 3) by (vm_compute; reflexivity). destruct laps210 as [|x [|y [|z [|]]]]; cbn in E; try discriminate E. reflexivity. Qed.
Lemma step210 k M cls : k < 3 -> (forall i j, i < 3 -> j < 3 -> ((0 < M i j)%num <-> cls i = cls j)) -> stochastic 3 M ->
  forallb (fun i => forallb (fun j => (qeqb (nth k laps210 ident i j) 0 || (cls i =? cls j)) && ((i =? j) || negb (cls i =? cls j) || negb (qeqb (nth k laps210 ident i j) 0))) (seq 0 3)) (seq 0 3) = true ->
  forall (t u : num) lamda, (t < u)%num -> (0 < lamda)%R -> walk_like 3 (nth k laps210 ident) ->
  stochastic 3 M /\ (exists F, inter_matrix 3 (q2r (u - t)%num * lamda)%R (nth k laps210 ident) F /\ same_support 3 M F).
Proof.
  intros Hk HM HS HB t u lamda Htu Hl HL. split; [exact HS|]. rewrite forallb_forall in HB.
  assert (HB' : forall i j, i < 3 -> j < 3 -> (nth k laps210 ident i j = 0%num \/ cls i = cls j) /\ (i = j \/ cls i <> cls j \/ nth k laps210 ident i j <> 0%num)).
  { intros i j Hi Hj. assert (H : In i (seq 0 3)) by (apply in_seq; lia). specialize (HB i H). rewrite forallb_forall in HB. assert (H' : In j (seq 0 3)) by (apply in_seq; lia). specialize (HB j H').
    apply andb_true_iff in HB. destruct HB as [B1 B2]. apply orb_true_iff in B1. rewrite !orb_true_iff, !negb_true_iff in B2. rewrite !Nat.eqb_eq in *. rewrite Nat.eqb_neq in B2.
    destruct (qeqb_spec (nth k laps210 ident i j) 0); split; intuition congruence. }
  apply (support_of_classes 3 _ lamda t u M cls Hl Htu HL HM).
  - intros i j Hi Hj H. destruct (HB' i j Hi Hj) as [[|] _]; [contradiction|assumption].
  - intros i j Hi Hj Hne H. destruct (HB' i j Hi Hj) as [_ [|[|]]]; [contradiction|contradiction|assumption].
Qed.
Lemma laps210_walk k : k < 3 -> walk_like 3 (nth k laps210 ident).
Proof.
  intros Hk. assert (HB : forallb (fun k => forallb (fun i => qeqb (sumN 3 (fun j => nth k laps210 ident i j)) 0 && (qeqb (nth k laps210 ident i i) 0 || qeqb (nth k laps210 ident i i) 1) &&
    forallb (fun j => (i =? j) || (qleb (- (1)) (nth k laps210 ident i j) && qleb (nth k laps210 ident i j) 0)) (seq 0 3)) (seq 0 3)) (seq 0 3) = true) by (vm_compute; reflexivity).
  rewrite forallb_forall in HB. assert (H : In k (seq 0 3)) by (apply in_seq; lia). specialize (HB k H). rewrite forallb_forall in HB.
  assert (HB' : forall i, i < 3 -> _) by (intros i Hi; assert (H' : In i (seq 0 3)) by (apply in_seq; lia); exact (HB i H')).
  split; [|split]; intros i; [intros Hi|intros Hi|intros j Hi Hj Hne]; specialize (HB' i Hi); rewrite !andb_true_iff, orb_true_iff, forallb_forall in HB'; destruct HB' as [[B1 B2] B3].
  - destruct (qeqb_spec (sumN 3 (fun j => nth k laps210 ident i j)) 0); [assumption|discriminate B1].
  - destruct (qeqb_spec (nth k laps210 ident i i) 0), (qeqb_spec (nth k laps210 ident i i) 1); try (now left); try (now right). destruct B2 as [B2|B2]; discriminate B2.
  - assert (H' : In j (seq 0 3)) by (apply in_seq; lia). specialize (B3 j H'). rewrite orb_true_iff, andb_true_iff, Nat.eqb_eq in B3. destruct B3 as [|[B3 B4]]; [contradiction|].
    destruct (qleb_spec (- (1)) (nth k laps210 ident i j)); [|discriminate B3]. destruct (qleb_spec (nth k laps210 ident i j) 0); [|discriminate B4]. now split.
Qed.
Ltac pairs3 := intros i j Hi Hj; below3 i Hi; below3 j Hj; (split; [intros H; try reflexivity; exfalso; vm_compute in H; discriminate H|intros H; try reflexivity; vm_compute in H; discriminate H]).
Ltac stoch3 := split; [intros i j Hi Hj; below3 i Hi; below3 j Hj; discriminate|intros i Hi; below3 i Hi; vm_compute; now apply Qc_is_canon].
Lemma mats210_computed : computed 3 1%R (between (times (rows later)) 0 3) laps210 mats210.
Proof.
  assert (ET : between (times (rows later)) 0 3 = [qn 0; qn 1; qn 2; qn 3]) by (vm_compute; reflexivity). rewrite ET, laps210_eq. unfold mats210. rewrite !computed_step.
  assert (K0 := step210 0 (mixed 0 1) cls01 ltac:(lia) ltac:(pairs3) ltac:(stoch3) ltac:(vm_compute; reflexivity) (qn 0) (qn 1) 1%R ltac:(reflexivity) Rlt_0_1 (laps210_walk 0 ltac:(lia))).
  assert (K1 := step210 1 ident (fun i => i) ltac:(lia) ltac:(pairs3) ltac:(stoch3) ltac:(vm_compute; reflexivity) (qn 1) (qn 2) 1%R ltac:(reflexivity) Rlt_0_1 (laps210_walk 1 ltac:(lia))).
  assert (K2 := step210 2 (mixed 1 2) cls12 ltac:(lia) ltac:(pairs3) ltac:(stoch3) ltac:(vm_compute; reflexivity) (qn 2) (qn 3) 1%R ltac:(reflexivity) Rlt_0_1 (laps210_walk 2 ltac:(lia))).
  split; [apply K0|]. split; [apply K0|]. split; [apply K1|]. split; [apply K1|]. split; [apply K2|]. split; [apply K2|]. exact Logic.I.
Qed.
(* the hypotheses of C210; {0,1},{2} is crossed by the second contact, and loses; {0,1,2} does not *)
Definition pair_and_one : partition := part_of_list 3 [[0; 1]; [2]].
Definition all_three : partition := part_of_list 3 [[0; 1; 2]].
Lemma valid_list n cl : partitions n cl -> valid (part_of_list n cl) /\ num_nodes (part_of_list n cl) = n.
Proof. intros H. apply constructed_valid. now constructor. Qed.
Lemma partitions210 : partitions 3 [[0; 1]; [2]] /\ partitions 3 [[0; 1; 2]].
Proof.
  split; (split; [repeat constructor; cbn; lia|]); split.
  - intros i j x (c & Ec & Hc) (d & Ed & Hd). destruct i as [|[|i]], j as [|[|j]]; cbn in Ec, Ed; try (destruct i; discriminate Ec); try (destruct j; discriminate Ed); try reflexivity; injection Ec as <-; injection Ed as <-; cbn in Hc, Hd; lia.
  - intros x. split; [intros Hx; below3 x Hx; [exists 0, [0; 1]|exists 0, [0; 1]|exists 1, [2]]; (split; [reflexivity|cbn; tauto])|]. intros (i & c & Ec & Hc). destruct i as [|[|i]]; cbn in Ec; try (destruct i; discriminate Ec); injection Ec as <-; cbn in Hc; lia.
  - intros i j x (c & Ec & Hc) (d & Ed & Hd). destruct i as [|i], j as [|j]; cbn in Ec, Ed; try (destruct i; discriminate Ec); try (destruct j; discriminate Ed); reflexivity.
  - intros x. split; [intros Hx; exists 0, [0; 1; 2]; split; [reflexivity|cbn; lia]|]. intros (i & c & Ec & Hc). destruct i as [|i]; cbn in Ec; try (destruct i; discriminate Ec); injection Ec as <-; cbn in Hc; lia.
Qed.
Example C210_applies : make_net 0 true false [0; 1] [1; 2] [qn 0; qn 2] [qn 1; qn 3] = Some later /\ rows later <> [] /\ ids_ok later = true /\ no_self_contact (rows later) /\ lasting (rows later) /\ no_overlap (rows later) /\
  compute_laplacians later (sorted_grid (rows later)) None None = Some (0, 3, laps210) /\ computed 3 1%R (between (times (rows later)) 0 3) laps210 mats210 /\
  exists A, match flow210 with Some F => f_I F = [A] | None => False end /\
    valid pair_and_one /\ ~ contacts_inside (rows later) (qn 0) (qn 3) pair_and_one /\ (qeqb (compute_stability A pair_and_one) (heterogeneity (the_distribution 3 None) pair_and_one) = false) /\
    valid all_three /\ contacts_inside (rows later) (qn 0) (qn 3) all_three /\ (qeqb (compute_stability A all_three) (heterogeneity (the_distribution 3 None) all_three) = true).
Proof.
  destruct C194_applies as (H1 & H2 & H3 & H4 & H5 & _). split; [exact H1|]. split; [discriminate|]. split; [exact H2|]. split; [exact H3|]. split; [exact H4|]. split; [exact H5|]. split.
  { unfold laps210. destruct (compute_laplacians later (sorted_grid (rows later)) None None) as [[[ka kb] l]|] eqn:E.
    - assert (K : match compute_laplacians later (sorted_grid (rows later)) None None with Some (x, y, _) => (x, y) | None => (7, 7) end = (0, 3)) by (vm_compute; reflexivity). rewrite E in K. injection K as -> ->. reflexivity.
    - assert (K : match compute_laplacians later (sorted_grid (rows later)) None None with Some _ => true | None => false end = true) by (vm_compute; reflexivity). rewrite E in K. discriminate K. }
  split; [exact mats210_computed|]. destruct flow210 as [F|] eqn:E.
  2:{ assert (K : match flow210 with Some _ => true | None => false end = true) by (vm_compute; reflexivity). rewrite E in K. discriminate K. }
  assert (K : match flow210 with Some F => length (f_I F) | None => 7 end = 1) by (vm_compute; reflexivity). rewrite E in K. destruct (f_I F) as [|A [|]] eqn:EA; cbn in K; try discriminate K.
  exists A. split; [reflexivity|]. destruct partitions210 as [P1 P2].
  assert (KS : match flow210 with Some F => match f_I F with A :: _ => (qeqb (compute_stability A pair_and_one) (heterogeneity (the_distribution 3 None) pair_and_one), qeqb (compute_stability A all_three) (heterogeneity (the_distribution 3 None) all_three)) | [] => (true, false) end | None => (true, false) end = (false, true)) by (vm_compute; reflexivity).
  rewrite E, EA in KS. injection KS as KS1 KS2. split; [now apply valid_list|]. split.
  { intros H. assert (Hc : contact (rows later) 1 2 (qn 2)) by (exists (ev 1 2 2 3); split; [right; now left|]; split; [left; now split|split; [discriminate|reflexivity]]).
    destruct (H 1 2 (qn 2) ltac:(discriminate) ltac:(reflexivity) Hc) as (i & (c & Ec & Hc1) & (d & Ed & Hd)). rewrite Ec in Ed. injection Ed as <-. destruct i as [|[|i]]; cbn in Ec; try (destruct i; discriminate Ec); injection Ec as <-; cbn in Hc1, Hd; lia. }
  split; [exact KS1|]. split; [now apply valid_list|]. split; [|exact KS2].
  intros i j u _ _ (e & He & HJ & _). exists 0. cbn [later rows map snd In] in He. destruct He as [<-|[<-|[]]]; unfold joins in HJ; cbn [ev e_src e_tgt] in HJ; (split; exists [0; 1; 2]; (split; [reflexivity|cbn; lia])).
Qed.
