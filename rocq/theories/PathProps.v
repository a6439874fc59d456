(** Property C194: walkers follow the paths that respect time, and all of them. *)
From Coq Require Import Reals Qreals Lra Lia.
From Verif Require Import Base GapModel GapProofs LouvainModel EventsModel EventsSpec EventsProofs LaplacianProofs MergeProofs EventsProps
  TransModel TransSpec TransProps ExpModel ExpSpec ExpSeries ExpProps PeriodSpec PeriodProps PathSpec.
Local Open Scope R_scope.

(** ** Journeys *)
Lemma journey_later (before : num -> num -> Prop) C a b i k u : (forall x y, before x y -> (x <= y)%num) -> journey before C a b i k u -> (a <= u)%num.
Proof. intros HB H. induction H as [|k u j v H IH Hb _ _]; [apply Qcle_refl|]. apply HB in Hb. qlra. Qed.
Lemma journey_split C a b u i j w : journey Qcle C a b i j w -> (a <= u)%num ->
  ((w < u)%num -> journey Qcle C a u i j w) /\ ((u <= w)%num -> exists k s w', journey Qcle C a u i k s /\ journey Qcle C u b k j w' /\ (w' <= w)%num).
Proof.
  intros H Hau. induction H as [|k s j v H [IH1 IH2] Hsv Hvb HC].
  - split; intros Hu; [constructor|]. exists i, a, u. split; [constructor|]. split; [constructor|exact Hu].
  - split; intros Hu.
    + apply (hop _ _ _ _ _ k s); [apply IH1; qlra|exact Hsv|exact Hu|exact HC].
    + destruct (qltb_spec s u) as [Hs|Hs].
      * exists k, s, v. split; [now apply IH1|]. split; [|apply Qcle_refl]. apply (hop _ _ _ _ _ k u); [constructor|exact Hu|exact Hvb|exact HC].
      * apply Qcnot_lt_le in Hs. destruct (IH2 Hs) as (m & s' & w' & J1 & J2 & Hw). exists m, s', v. split; [exact J1|]. split; [|apply Qcle_refl]. apply (hop _ _ _ _ _ k w'); [exact J2|qlra|exact Hvb|exact HC].
Qed.
Lemma journey_more C a b b' i j w : journey Qclt C a b i j w -> (b <= b')%num -> journey Qclt C a b' i j w.
Proof. intros H Hb. induction H as [|k s j v H IH Hsv Hvb HC]; [constructor|]. apply (hop _ _ _ _ _ k s); [exact IH|exact Hsv|qlra|exact HC]. Qed.
Lemma journey_join C a b u i k s j w : journey Qclt C a b i k s -> (s <= u)%num -> journey Qclt C u b k j w -> exists w', journey Qclt C a b i j w' /\ (w' <= w)%num.
Proof.
  intros H Hs J. induction J as [|m r j v J (w' & IH & Hw) Hrv Hvb HC]; [now exists s|]. exists v. split; [|apply Qcle_refl]. apply (hop _ _ _ _ _ m w'); [exact IH|qlra|exact Hvb|exact HC].
Qed.

(** ** One step *)
Lemma qone_neq_zero : 1%num <> 0%num. Proof. discriminate. Qed.
Lemma qhalf_between s u : (s < u)%num -> (s < (s + u) / (1 + 1) /\ (s + u) / (1 + 1) < u)%num.
Proof.
  intros H. assert (E : ((s + u) / (1 + 1) + (s + u) / (1 + 1) = s + u)%num) by (field; discriminate). split; qlra.
Qed.
Lemma laplacian_entry n (R : nat -> nat -> Prop) L i j : walk_laplacian n R L -> (i < n)%nat -> (j < n)%nat -> i <> j -> (L i j <> 0%num <-> R i j).
Proof.
  intros (adj & Ha & HL) Hi Hj Hne. rewrite (HL i j Hi Hj), <- (Ha i j Hi Hj). destruct (Nat.eqb_spec i j) as [|_]; [contradiction|]. unfold walk.
  destruct (degree n adj i) as [|d] eqn:ED.
  - assert (EA : adj i j = false). { destruct (adj i j) eqn:EA; [|reflexivity]. unfold degree in ED. apply length_zero_iff_nil in ED. assert (In j (filter (adj i) (seq 0 n))) by (apply filter_In; split; [apply in_seq; lia|exact EA]). rewrite ED in *. contradiction. }
    rewrite EA. destruct (Nat.eqb_spec i j) as [|_]; [contradiction|]. split; [intros H; exfalso; apply H; ring|discriminate].
  - destruct (adj i j); [|split; [intros H; exfalso; apply H; ring|discriminate]]. split; [reflexivity|intros _ H].
    pose proof (qneq_pos _ (qn_Spos d)) as Hp. apply qone_neq_zero. transitivity (- (0 - 1 / qn (S d)) * qn (S d))%num; [now field|]. rewrite H. ring.
Qed.
Lemma reaches_journey n C L t u i : (forall w, (t <= w)%num -> (w < u)%num -> walk_laplacian n (C w) L) -> (t < u)%num -> forall m k, reaches n (fun a b => L a b <> 0%num) m k ->
  forall s, journey Qclt C t u i m s -> (s < u)%num -> exists s', journey Qclt C t u i k s' /\ (s' < u)%num.
Proof.
  intros HL Htu m k H. induction H as [m Hm|m j k Hm Hj Hs Hr IH]; intros s J Hu; [now exists s|]. destruct (Nat.eq_dec m j) as [<-|Hne]; [now apply (IH s)|].
  pose proof (journey_later Qclt C t u i m s (fun x y H => Qclt_le_weak _ _ H) J) as Hts. assert (Hlt : (s < (s + u) / (1 + 1) /\ (s + u) / (1 + 1) < u)%num) by (split; apply (qhalf_between s u Hu)).
  apply (IH ((s + u) / (1 + 1))%num); [|apply Hlt]. apply (hop _ _ _ _ _ m s); [exact J|apply Hlt|apply Hlt|]. apply (laplacian_entry n (C ((s + u) / (1 + 1))%num) L m j); auto. apply HL; [destruct Hlt; qlra|apply Hlt].
Qed.
Lemma journey_reaches n (C : num -> nat -> nat -> Prop) L t u i k s : (forall w, (t <= w)%num -> (w < u)%num -> walk_laplacian n (C w) L) -> (forall w a b, C w a b -> (a < n)%nat /\ (b < n)%nat) -> (i < n)%nat ->
  journey Qcle C t u i k s -> reaches n (fun a b => L a b <> 0%num) i k.
Proof.
  intros HL HC Hi J. induction J as [|k s j v J IH Hsv Hvu HCv]; [now constructor|]. destruct (HC v k j HCv) as [Hk Hj]. destruct (Nat.eq_dec k j) as [<-|Hne]; [exact IH|].
  assert (HE : L k j <> 0%num). { apply (laplacian_entry n (C v) L k j); auto. apply HL; [|exact Hvu]. pose proof (journey_later Qcle C t u i k s (fun x y H => H) J). qlra. }
  clear - IH HE Hk Hj. induction IH as [m Hm|m p q Hm Hp Hs Hr IH]; [apply (reaches_step n _ m j); auto; now constructor|]. eapply reaches_step; [exact Hm|exact Hp|exact Hs|now apply IH].
Qed.

(** ** Products *)
Lemma rsum_positive n f : (forall k, (k < n)%nat -> 0 <= f k) -> (0 < rsum n f <-> exists k, (k < n)%nat /\ 0 < f k).
Proof.
  intros H. split.
  - intros Hp. destruct (existsb (fun k => if Rlt_dec 0 (f k) then true else false) (seq 0 n)) eqn:EX.
    + apply existsb_exists in EX as (k & Hk & E). apply in_seq in Hk. exists k. split; [lia|]. now destruct (Rlt_dec 0 (f k)).
    + exfalso. assert (HZ : forall k, (k < n)%nat -> f k = 0).
      { intros k Hk. specialize (H k Hk). destruct (Rle_lt_or_eq_dec _ _ H) as [K|K]; [|now symmetry]. assert (existsb (fun k => if Rlt_dec 0 (f k) then true else false) (seq 0 n) = true); [|congruence]. apply existsb_exists. exists k. split; [apply in_seq; lia|]. now destruct (Rlt_dec 0 (f k)). }
      rewrite (rsum_ext n f (fun _ => 0) HZ) in Hp. rewrite rsum_const in Hp. lra.
  - intros (k & Hk & Hf). exact (Rlt_le_trans _ _ _ Hf (rsum_ge_term n f k Hk H)).
Qed.
Definition nonneg_mat (n : nat) (T : rmat) : Prop := forall i j, (i < n)%nat -> (j < n)%nat -> 0 <= T i j.
Lemma times_nonneg n T G : nonneg_mat n T -> nonneg_mat n G -> nonneg_mat n (times_matrix n T G).
Proof. intros HT HG i j Hi Hj. rewrite <- (Rmult_0_r (INR n)), <- rsum_const. apply rsum_le. intros c Hc. apply Rmult_le_pos; auto. Qed.
Lemma times_positive n T G i j : nonneg_mat n T -> nonneg_mat n G -> (i < n)%nat -> (j < n)%nat -> (0 < times_matrix n T G i j <-> exists k, (k < n)%nat /\ 0 < T i k /\ 0 < G k j).
Proof.
  intros HT HG Hi Hj. unfold times_matrix. rewrite rsum_positive by (intros c Hc; apply Rmult_le_pos; auto). split; intros (k & Hk & H); exists k; (split; [exact Hk|]).
  - specialize (HT i k Hi Hk). specialize (HG k j Hk Hj). split; [destruct (Rle_lt_or_eq_dec _ _ HT) as [K|K]|destruct (Rle_lt_or_eq_dec _ _ HG) as [K|K]]; auto; rewrite <- K in H; lra.
  - destruct H. now apply Rmult_lt_0_compat.
Qed.
Lemma product_positive n lamda (C : num -> nat -> nat -> Prop) : 0 < lamda -> (forall w a b, C w a b -> (a < n)%nat /\ (b < n)%nat) -> forall ts Ls T F, fits n C ts Ls -> nonneg_mat n T -> multiplied n lamda T ts Ls F ->
  forall i j, (i < n)%nat -> (j < n)%nat ->
    (0 < F i j -> exists k s, (k < n)%nat /\ 0 < T i k /\ journey Qclt C (hd 0%num ts) (last ts 0%num) k j s) /\
    ((exists k s, (k < n)%nat /\ 0 < T i k /\ journey Qcle C (hd 0%num ts) (last ts 0%num) k j s) -> 0 < F i j).
Proof.
  intros Hl HC. induction ts as [|t [|u r] IH]; intros Ls T F HF HT HM i j Hi Hj; [destruct HM| |].
  - destruct Ls; [|destruct HM]. cbn [multiplied] in HM. rewrite (HM i j Hi Hj). cbn [hd last]. split.
    + intros H. exists j, t. split; [exact Hj|]. split; [exact H|constructor].
    + intros (k & s & Hk & H & J). inversion J as [|m u ? v J' Huv Hvt HCv]; subst; [exact H|]. pose proof (journey_later Qcle C t t k m u (fun x y H => H) J'). qlra.
  - destruct Ls as [|L Ls]; [destruct HF|]. rewrite fits_step in HF. destruct HF as (Htu & HLk & HLC & HF). rewrite multiplied_step in HM. destruct HM as (G & HG & HM).
    assert (Hx : 0 < q2r (u - t)%num * lamda) by (apply Rmult_lt_0_compat; [rewrite <- q2r_0; apply q2r_lt; qlra|exact Hl]).
    destruct (C156_walk n L (q2r (u - t)%num * lamda) HLk (Rlt_le _ _ Hx)) as [_ HW]. destruct (HW G HG) as ([HG0 _] & _ & HGr & _). specialize (HGr Hx).
    destruct (IH Ls (times_matrix n T G) F HF (times_nonneg n T G HT HG0) HM i j Hi Hj) as [IH1 IH2]. clear IH.
    destruct (steps_last n C (u :: r) Ls HF) as [Hlast _]. cbn [hd] in Hlast, IH1, IH2 |- *. assert (EL : last (t :: u :: r) 0%num = last (u :: r) 0%num) by reflexivity. rewrite EL. clear EL. set (b := last (u :: r) 0%num) in *. split.
    + intros H. destruct (IH1 H) as (k & s & Hk & HP & J). apply (times_positive n T G i k HT HG0 Hi Hk) in HP as (m & Hm & HT' & HG'). apply (HGr m k Hm Hk) in HG'.
      destruct (reaches_journey n C L t u m HLC Htu m k HG' t (stay _ _ _ _ _) Htu) as (s' & J' & Hs'). apply (journey_more C t u b m k s') in J'; [|exact Hlast].
      destruct (journey_join C t b u m k s' j s J' (Qclt_le_weak _ _ Hs') J) as (w & Jw & _). now exists m, w.
    + intros (k & s & Hk & HT' & J). apply IH2. destruct (journey_split C t b u k j s J (Qclt_le_weak _ _ Htu)) as [J1 J2].
      assert (K : exists m s1 s2, journey Qcle C t u k m s1 /\ journey Qcle C u b m j s2).
      { destruct (qltb_spec s u) as [Hs|Hs]; [exists j, s, u; split; [now apply J1|constructor]|]. apply Qcnot_lt_le in Hs. destruct (J2 Hs) as (m & s1 & s2 & A & B & _). now exists m, s1, s2. }
      destruct K as (m & s1 & s2 & A & B). pose proof (journey_reaches n C L t u k m s1 HLC HC Hk A) as HR. assert (Hm : (m < n)%nat) by (clear - HR Hk; induction HR; auto).
      exists m, s2. split; [exact Hm|]. split; [|exact B]. apply (times_positive n T G i m HT HG0 Hi Hm). exists k. split; [exact Hk|]. split; [exact HT'|now apply (HGr k m Hk Hm)].
Qed.
Lemma reye_prob n : prob_matrix n reye.
Proof.
  split; [intros i j _ _; unfold reye; destruct (Nat.eqb i j); lra|]. intros i Hi. rewrite <- (rsum_delta n i (fun _ => 1) Hi). apply rsum_ext. intros k _. unfold reye. destruct (Nat.eqb i k); lra.
Qed.
Lemma times_prob n T G : prob_matrix n T -> prob_matrix n G -> prob_matrix n (times_matrix n T G).
Proof.
  intros [T0 T1] [G0 G1]. split; [now apply times_nonneg|]. intros i Hi. unfold times_matrix. rewrite rsum_swap. rewrite <- (T1 i Hi). apply rsum_ext. intros c Hc. rewrite rsum_scal, (G1 c Hc). ring.
Qed.
Lemma product_prob n lamda C : 0 <= lamda -> forall ts Ls T F, fits n C ts Ls -> prob_matrix n T -> multiplied n lamda T ts Ls F -> prob_matrix n F.
Proof.
  intros Hl. induction ts as [|t [|u r] IH]; intros Ls T F HF HT HM; [destruct HM| |].
  - destruct Ls; [|destruct HM]. exact (prob_same n F T HM HT).
  - destruct Ls as [|L Ls]; [destruct HF|]. rewrite fits_step in HF. destruct HF as (Htu & HLk & HLC & HF). rewrite multiplied_step in HM. destruct HM as (G & HG & HM).
    assert (Hx : 0 <= q2r (u - t)%num * lamda) by (apply Rmult_le_pos; [apply q2r_nonneg; qlra|exact Hl]).
    destruct (C156_walk n L (q2r (u - t)%num * lamda) HLk Hx) as [_ HW]. destruct (HW G HG) as (HG0 & _). exact (IH Ls (times_matrix n T G) F HF (times_prob n T G HT HG0) HM).
Qed.
Lemma network_paths N g a b : right_laplacians N g -> no_self_contact (rows N) -> ids_ok N = true ->
  exists ka kb Ls, compute_laplacians N g a b = Some (ka, kb, Ls) /\
    forall lamda, 0 < lamda -> (ka <= kb)%nat -> (exists F, multiplied (num_nodes_of N) lamda reye (between (times (rows N)) ka kb) Ls F) /\
      forall F, multiplied (num_nodes_of N) lamda reye (between (times (rows N)) ka kb) Ls F -> forall i j, (i < num_nodes_of N)%nat -> (j < num_nodes_of N)%nat ->
        (0 < F i j -> exists u, journey Qclt (contacts_of (rows N)) (nth ka (times (rows N)) 0%num) (nth kb (times (rows N)) 0%num) i j u) /\
        (forall u, journey Qcle (contacts_of (rows N)) (nth ka (times (rows N)) 0%num) (nth kb (times (rows N)) 0%num) i j u -> 0 < F i j).
Proof.
  intros HR Hself Hids. destruct (HR a b) as (ka & kb & Ls & E & _ & _ & Hlen & La & Lb & _). exists ka, kb, Ls. split; [exact E|]. intros lamda Hl Hk.
  pose proof (network_fits N g a b ka kb Ls HR Hself E Hk) as HF. split; [exact (product_exists _ lamda _ (Rlt_le _ _ Hl) _ _ reye HF)|]. intros F HM i j Hi Hj. destruct (between_ends _ _ _ Hk Lb) as [B1 B2].
  assert (HC : forall w a b, contacts_of (rows N) w a b -> (a < num_nodes_of N)%nat /\ (b < num_nodes_of N)%nat).
  { intros w x y (e & He & HJ & _). destruct (proj1 (ids_ok_spec N) Hids e He). destruct HJ as [[<- <-]|[<- <-]]; now split. }
  assert (HT : nonneg_mat (num_nodes_of N) reye) by (intros x y _ _; unfold reye; destruct (Nat.eqb x y); lra).
  destruct (product_positive _ lamda _ Hl HC _ _ reye F HF HT HM i j Hi Hj) as [P1 P2]. rewrite B1, B2 in P1, P2. split.
  - intros H. destruct (P1 H) as (k & s & Hk' & H1 & J). unfold reye in H1. destruct (Nat.eqb_spec i k) as [->|]; [now exists s|lra].
  - intros u J. apply P2. exists i, u. split; [exact Hi|]. split; [|exact J]. unfold reye. rewrite Nat.eqb_refl. lra.
Qed.

(** * C194 *)
(** events without overlaps: a transition has positive probability exactly when a path that respects time
    leads from node to node; successive contacts may be required to take place at later times or not *)
Theorem C194_paths : forall fuel srcs tgts starts ends N g a b, make_net fuel true false srcs tgts starts ends = Some N ->
  rows N <> [] -> ids_ok N = true -> no_self_contact (rows N) -> lasting (rows N) -> no_overlap (rows N) -> is_time_grid (rows N) g ->
  exists ka kb Ls, compute_laplacians N g a b = Some (ka, kb, Ls) /\
    forall lamda, 0 < lamda -> (ka <= kb)%nat -> (exists F, multiplied (num_nodes_of N) lamda reye (between (times (rows N)) ka kb) Ls F) /\
      forall F, multiplied (num_nodes_of N) lamda reye (between (times (rows N)) ka kb) Ls F -> forall i j, (i < num_nodes_of N)%nat -> (j < num_nodes_of N)%nat ->
        (0 < F i j -> exists u, journey Qclt (contacts_of (rows N)) (nth ka (times (rows N)) 0%num) (nth kb (times (rows N)) 0%num) i j u) /\
        (forall u, journey Qcle (contacts_of (rows N)) (nth ka (times (rows N)) 0%num) (nth kb (times (rows N)) 0%num) i j u -> 0 < F i j).
Proof.
  intros fuel srcs tgts starts ends N g a b HN Hne Hids Hself HL HV HG. apply network_paths; auto. intros a0 b0. exact (C34_laplacians fuel srcs tgts starts ends N g a0 b0 HN Hne Hids Hself HL HV HG).
Qed.
(** a merged network, whose overlaps were simple: paths through the events as they were given *)
Theorem C194_merged : forall fuel srcs tgts starts ends N0 N g a b, make_net 0 true false srcs tgts starts ends = Some N0 -> make_net fuel true true srcs tgts starts ends = Some N ->
  rows N0 <> [] -> ids_ok N0 = true -> no_self_contact (rows N0) -> lasting (rows N0) -> simple_overlaps (rows N0) -> is_time_grid (rows N) g ->
  exists ka kb Ls, compute_laplacians N g a b = Some (ka, kb, Ls) /\
    forall lamda, 0 < lamda -> (ka <= kb)%nat -> (exists F, multiplied (num_nodes_of N) lamda reye (between (times (rows N)) ka kb) Ls F) /\
      forall F, multiplied (num_nodes_of N) lamda reye (between (times (rows N)) ka kb) Ls F -> forall i j, (i < num_nodes_of N)%nat -> (j < num_nodes_of N)%nat ->
        (0 < F i j -> exists u, journey Qclt (contacts_of (rows N0)) (nth ka (times (rows N)) 0%num) (nth kb (times (rows N)) 0%num) i j u) /\
        (forall u, journey Qcle (contacts_of (rows N0)) (nth ka (times (rows N)) 0%num) (nth kb (times (rows N)) 0%num) i j u -> 0 < F i j).
Proof.
  intros fuel srcs tgts starts ends N0 N g a b HN0 HM Hne Hids Hself HL HSO HG.
  assert (HOrd : ordered (rows N0)) by (intros e He; specialize (HL e He); qlra).
  destruct (proj2 (C37_sound_partial srcs tgts starts ends N0 HN0 Hids HOrd) fuel N HM) as (EN & Hids1 & HV1 & HC1 & HT1 & HC2). specialize (HC2 HL HSO).
  assert (Hself1 : no_self_contact (rows N)) by (intros e He; destruct (HT1 e He) as (f & Hf & -> & -> & _); now apply Hself).
  assert (Hne1 : rows N <> []).
  { intros E0. destruct (rows N0) as [|[k e] r]; [now apply Hne|]. destruct (HC2 (e_src e) (e_tgt e) (e_start e)) as (f & Hf & _); [exists e; split; [now left|]; split; [left; now split|]; split; [apply Qcle_refl|apply HL; now left]|]. rewrite E0 in Hf. destruct Hf. }
  assert (HR : right_laplacians N g) by (intros a0 b0; exact (C34_merged fuel srcs tgts starts ends N0 N g a0 b0 HN0 Hids Hself HL HM Hne1 HG)).
  destruct (network_paths N g a b HR Hself1 Hids1) as (ka & kb & Ls & E & H). exists ka, kb, Ls. split; [exact E|]. intros lamda Hl Hk. destruct (H lamda Hl Hk) as [HX HF]. split; [exact HX|]. clear H. intros F HF' i j Hi Hj. destruct (HF F HF' i j Hi Hj) as [H1 H2].
  assert (HJ : forall before t t' x y i j u, (forall i j u, contact t i j u -> contact t' i j u) -> journey before (contacts_of t) x y i j u -> journey before (contacts_of t') x y i j u).
  { intros before t t' x y i0 j0 u HC J. induction J as [|k s j1 v J IH Hb Hv HCv]; [constructor|]. apply (hop _ _ _ _ _ k s); auto. now apply HC. }
  split; [intros HP; destruct (H1 HP) as (u & J); exists u; exact (HJ _ _ _ _ _ _ _ _ HC1 J)|]. intros u J. apply (H2 u). exact (HJ _ _ _ _ _ _ _ _ HC2 J).
Qed.

(** a node that nobody meets: walkers stay there, and no walker arrives *)
Theorem C194_alone : forall fuel srcs tgts starts ends N g a b, make_net fuel true false srcs tgts starts ends = Some N ->
  rows N <> [] -> ids_ok N = true -> no_self_contact (rows N) -> lasting (rows N) -> no_overlap (rows N) -> is_time_grid (rows N) g ->
  exists ka kb Ls, compute_laplacians N g a b = Some (ka, kb, Ls) /\
    forall lamda, 0 < lamda -> (ka <= kb)%nat -> forall F, multiplied (num_nodes_of N) lamda reye (between (times (rows N)) ka kb) Ls F ->
      prob_matrix (num_nodes_of N) F /\
      forall i j, (i < num_nodes_of N)%nat -> (j < num_nodes_of N)%nat ->
        (forall k u, (nth ka (times (rows N)) 0%num <= u)%num -> (u < nth kb (times (rows N)) 0%num)%num -> ~ contact (rows N) i k u) ->
        F i j = reye i j /\ F j i = reye j i.
Proof.
  intros fuel srcs tgts starts ends N g a b HN Hne Hids Hself HL HV HG.
  assert (HR : right_laplacians N g) by (intros a0 b0; exact (C34_laplacians fuel srcs tgts starts ends N g a0 b0 HN Hne Hids Hself HL HV HG)).
  destruct (network_paths N g a b HR Hself Hids) as (ka & kb & Ls & E & H). exists ka, kb, Ls. split; [exact E|]. intros lamda Hl Hk F HF. destruct (H lamda Hl Hk) as [_ HP]. specialize (HP F HF). clear H.
  pose proof (network_fits N g a b ka kb Ls HR Hself E Hk) as HFit. assert (HPr : prob_matrix (num_nodes_of N) F) by (exact (product_prob _ lamda _ (Rlt_le _ _ Hl) _ _ reye F HFit (reye_prob _) HF)). split; [exact HPr|].
  intros i j Hi Hj Halone. destruct HPr as [P0 P1]. assert (K : forall k l, (k < num_nodes_of N)%nat -> (l < num_nodes_of N)%nat -> k = i \/ l = i -> k <> l -> F k l = 0).
  { intros k l Hk' Hl' Hor Hkl. specialize (P0 k l Hk' Hl'). destruct (Rle_lt_or_eq_dec _ _ P0) as [Hp|Hp]; [|now symmetry]. exfalso. destruct (HP k l Hk' Hl') as [HJ _]. destruct (HJ Hp) as (u & J).
    assert (Hs : forall m v, journey Qclt (contacts_of (rows N)) (nth ka (times (rows N)) 0%num) (nth kb (times (rows N)) 0%num) k m v -> (m = i <-> k = i)).
    { intros m v Hm. induction Hm as [|m s q v Hm IH Hsv Hv HC]; [reflexivity|]. pose proof (journey_later Qclt _ _ _ _ _ _ (fun x y H => Qclt_le_weak _ _ H) Hm) as Hge.
      assert (Hv1 : (nth ka (times (rows N)) 0%num <= v)%num) by (apply Qclt_le_weak in Hsv; exact (Qcle_trans _ _ _ Hge Hsv)). rewrite <- IH. split; intros ->; exfalso.
      - apply (Halone m v Hv1 Hv). destruct HC as (e & He & HJe & Hact). exists e. split; [exact He|]. split; [|exact Hact]. destruct HJe as [[A B]|[A B]]; [right|left]; now split.
      - exact (Halone q v Hv1 Hv HC). }
    specialize (Hs l u J). destruct Hor as [->| ->]; [apply Hkl; symmetry; now apply Hs|apply Hkl; now apply Hs]. }
  assert (Kii : F i i = 1).
  { rewrite <- (P1 i Hi), <- (rsum_delta (num_nodes_of N) i (F i) Hi). apply rsum_ext. intros k Hk'. destruct (Nat.eqb_spec i k) as [<-|Hne']; [ring|]. rewrite (K i k Hi Hk') by auto. ring. }
  unfold reye. rewrite (Nat.eqb_sym j i). destruct (Nat.eqb_spec i j) as [<-|Hne']; [now split|]. split; apply K; auto.
Qed.
(* 0 meets 1, and later 1 meets 2: walkers go from 0 to 2 and not from 2 to 0 *)
Definition later : net := mkNet [(0%nat, ev 0 1 0 1); (1%nat, ev 1 2 2 3)] [0; 1; 2]%nat.
Example C194_applies : make_net 0 true false [0; 1]%nat [1; 2]%nat [qn 0; qn 2] [qn 1; qn 3] = Some later /\ ids_ok later = true /\ no_self_contact (rows later) /\ lasting (rows later) /\ no_overlap (rows later) /\
  is_time_grid (rows later) (sorted_grid (rows later)) /\ (exists u, journey Qclt (contacts_of (rows later)) (qn 0) (qn 3) 0 2 u) /\ ~ (exists u, journey Qcle (contacts_of (rows later)) (qn 0) (qn 3) 2 0 u).
Proof.
  assert (HV : no_overlap (rows later)).
  { intros x y e f i j He Hf Hxy J1 J2. cbn in He, Hf. destruct He as [He|[He|[]]], Hf as [Hf|[Hf|[]]]; injection He as <- <-; injection Hf as <- <-; try congruence; unfold joins in J1, J2; cbn in J1, J2; lia. }
  split; [reflexivity|]. split; [reflexivity|]. split; [intros e; in_cases; cbn; lia|]. split; [intros e; in_cases; vm_compute; reflexivity|]. split; [exact HV|]. split; [apply grid_exists|]. split.
  - exists (qn 2). apply (hop _ _ _ _ _ 1%nat (qf 1 2)); [|reflexivity|reflexivity|exists (ev 1 2 2 3); split; [right; now left|]; split; [left; now split|split; [discriminate|reflexivity]]].
    apply (hop _ _ _ _ _ 0%nat (qn 0)); [constructor|reflexivity|reflexivity|exists (ev 0 1 0 1); split; [now left|]; split; [left; now split|split; [discriminate|reflexivity]]].
  - intros (u & J). assert (K : forall j u, journey Qcle (contacts_of (rows later)) (qn 0) (qn 3) 2 j u -> j = 2%nat \/ (j = 1%nat /\ (qn 2 <= u)%num)).
    { intros j v H. induction H as [|k s j v H IH Hsv Hv (e & He & HJ & [A1 A2])]; [now left|]. cbn [later rows map snd In] in He. destruct He as [<-|[<-|[]]]; unfold joins in HJ; cbn [ev e_src e_tgt e_start e_end] in *.
      - exfalso. destruct IH as [->|[-> IH]]; [lia|]. assert (qn 1 < qn 2)%num by reflexivity. qlra.
      - destruct HJ as [[_ <-]|[<- _]]; [now left|right; now split]. }
    destruct (K 0%nat u J) as [|[]]; discriminate.
Qed.

Print Assumptions C194_paths.
Print Assumptions C194_merged.
Print Assumptions C194_alone.
