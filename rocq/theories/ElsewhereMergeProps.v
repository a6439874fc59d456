(** Property C195, continued: networks whose overlapping events are merged. *)
From Coq Require Import Reals Qreals Lra Lia Permutation.
From Verif Require Import Base GapModel GapProofs LouvainModel EventsModel EventsSpec EventsProofs LaplacianProofs MergeProofs EventsProps
  TransModel TransSpec TransProps ExpModel ExpSpec ExpSeries ExpProps PeriodSpec PeriodProps PathSpec PathProps ElsewhereProps.
Local Open Scope R_scope.

(** a merged network, whose overlaps were simple, has the Laplacians and the contacts of the events as they were given *)
Lemma merged_right fuel srcs tgts starts ends N0 N g : make_net 0 true false srcs tgts starts ends = Some N0 -> make_net fuel true true srcs tgts starts ends = Some N ->
  rows N0 <> [] -> ids_ok N0 = true -> no_self_contact (rows N0) -> lasting (rows N0) -> simple_overlaps (rows N0) -> is_time_grid (rows N) g ->
  right_laplacians N g /\ no_self_contact (rows N) /\ forall i j u, contact (rows N) i j u <-> contact (rows N0) i j u.
Proof.
  intros HN0 HM Hne Hids Hself HL HSO HG. assert (HOrd : ordered (rows N0)) by (intros e He; specialize (HL e He); qlra).
  destruct (proj2 (C37_sound_partial srcs tgts starts ends N0 HN0 Hids HOrd) fuel N HM) as (EN & Hids1 & HV1 & HC1 & HT1 & HC2). specialize (HC2 HL HSO).
  assert (Hself1 : no_self_contact (rows N)) by (intros e He; destruct (HT1 e He) as (f & Hf & -> & -> & _); now apply Hself).
  assert (Hne1 : rows N <> []).
  { intros E0. destruct (rows N0) as [|[k e] r]; [now apply Hne|]. destruct (HC2 (e_src e) (e_tgt e) (e_start e)) as (f & Hf & _); [exists e; split; [now left|]; split; [left; now split|]; split; [apply Qcle_refl|apply HL; now left]|]. rewrite E0 in Hf. destruct Hf. }
  split; [intros a0 b0; exact (C34_merged fuel srcs tgts starts ends N0 N g a0 b0 HN0 Hids Hself HL HM Hne1 HG)|]. split; [exact Hself1|]. intros i j u. split; [apply HC1|apply HC2].
Qed.

(** * C195 *)
Theorem C195_merged : forall fuel fuel' srcs tgts starts ends srcs' tgts' starts' ends' N0 N N0' N' g g' a b (A : nat -> bool),
  make_net 0 true false srcs tgts starts ends = Some N0 -> make_net fuel true true srcs tgts starts ends = Some N ->
  make_net 0 true false srcs' tgts' starts' ends' = Some N0' -> make_net fuel' true true srcs' tgts' starts' ends' = Some N' ->
  rows N0 <> [] -> ids_ok N0 = true -> no_self_contact (rows N0) -> lasting (rows N0) -> simple_overlaps (rows N0) -> is_time_grid (rows N) g ->
  rows N0' <> [] -> ids_ok N0' = true -> no_self_contact (rows N0') -> lasting (rows N0') -> simple_overlaps (rows N0') -> is_time_grid (rows N') g' ->
  (* a window that begins and ends at times of both networks *)
  In a (times (rows N)) -> In a (times (rows N')) -> In b (times (rows N)) -> In b (times (rows N')) -> (a <= b)%num ->
  (* a part of the nodes of both networks which has, in the events as they were given, the same contacts during the window, and only contacts inside the part *)
  (forall i, A i = true -> (i < num_nodes_of N)%nat /\ (i < num_nodes_of N')%nat) ->
  (forall i j u, A i = true -> (a <= u)%num -> (u < b)%num -> (contact (rows N0) i j u <-> contact (rows N0') i j u) /\ (contact (rows N0) i j u -> A j = true)) ->
  exists ka kb Ls ka' kb' Ls', compute_laplacians N g (Some a) (Some b) = Some (ka, kb, Ls) /\ compute_laplacians N' g' (Some a) (Some b) = Some (ka', kb', Ls') /\
    forall lamda, 0 <= lamda ->
      (exists F, multiplied (num_nodes_of N) lamda reye (between (times (rows N)) ka kb) Ls F) /\
      (exists F', multiplied (num_nodes_of N') lamda reye (between (times (rows N')) ka' kb') Ls' F') /\
      forall F F', multiplied (num_nodes_of N) lamda reye (between (times (rows N)) ka kb) Ls F -> multiplied (num_nodes_of N') lamda reye (between (times (rows N')) ka' kb') Ls' F' ->
        (forall i j, A i = true -> A j = true -> F i j = F' i j) /\
        (forall i j, A i = true -> (j < num_nodes_of N)%nat -> A j = false -> F i j = 0).
Proof.
  intros fuel fuel' srcs tgts starts ends srcs' tgts' starts' ends' N0 N N0' N' g g' a b A HN0 HN HN0' HN' Hne Hids Hself0 HL HV HG Hne' Hids' Hself0' HL' HV' HG' Ia Ia' Ib Ib' Hab HA HC0.
  destruct (merged_right _ _ _ _ _ _ _ g HN0 HN Hne Hids Hself0 HL HV HG) as (HR & Hself & HE). destruct (merged_right _ _ _ _ _ _ _ g' HN0' HN' Hne' Hids' Hself0' HL' HV' HG') as (HR' & Hself' & HE').
  assert (HC : forall i j u, A i = true -> (a <= u)%num -> (u < b)%num -> (contact (rows N) i j u <-> contact (rows N') i j u) /\ (contact (rows N) i j u -> A j = true)).
  { intros i j u Ai H1 H2. rewrite HE, HE'. now apply HC0. }
  destruct (HR (Some a) (Some b)) as (ka & kb & Ls & E & Sa & Sb & Hlen & La & Lb & _). destruct (HR' (Some a) (Some b)) as (ka' & kb' & Ls' & E' & Sa' & Sb' & Hlen' & La' & Lb' & _).
  assert (HS := times_sorted (rows N)). assert (HS' := times_sorted (rows N')).
  pose proof (index_time _ a ka HS La Ia Sa) as Ea. pose proof (index_time _ a ka' HS' La' Ia' Sa') as Ea'. pose proof (index_time _ b kb HS Lb Ib Sb) as Eb. pose proof (index_time _ b kb' HS' Lb' Ib' Sb') as Eb'.
  assert (Hk : (ka <= kb)%nat) by (destruct (Nat.le_gt_cases ka kb) as [|H]; [assumption|]; pose proof (qsorted_nth _ kb ka 0%num HS H La) as H1; rewrite Ea, Eb in H1; qlra).
  assert (Hk' : (ka' <= kb')%nat) by (destruct (Nat.le_gt_cases ka' kb') as [|H]; [assumption|]; pose proof (qsorted_nth _ kb' ka' 0%num HS' H La') as H1; rewrite Ea', Eb' in H1; qlra).
  exists ka, kb, Ls, ka', kb', Ls'. split; [exact E|]. split; [exact E'|]. intros lamda Hl.
  pose proof (network_fits N g _ _ ka kb Ls HR Hself E Hk) as HF. pose proof (network_fits N' g' _ _ ka' kb' Ls' HR' Hself' E' Hk') as HF'.
  split; [exact (product_exists _ _ _ Hl _ _ _ HF)|]. split; [exact (product_exists _ _ _ Hl _ _ _ HF')|]. intros F F' HM HM'.
  destruct (between_ends _ _ _ Hk Lb) as [B1 B2]. destruct (between_ends _ _ _ Hk' Lb') as [B1' B2'].
  assert (HCw : forall w i j, (hd 0 (between (times (rows N)) ka kb) <= w)%num -> (w < b)%num -> A i = true -> (contact (rows N) i j w <-> contact (rows N') i j w) /\ (contact (rows N) i j w -> A j = true)).
  { intros w i j H1 H2 Ai. rewrite B1, Ea in H1. exact (HC i j w Ai H1 H2). }
  destruct (agree_product (num_nodes_of N) (num_nodes_of N') A HA lamda _ _ b Hl _ _ _ Ls Ls' reye reye F F' (le_n _) HCw HF HF' ltac:(congruence) ltac:(congruence) ltac:(congruence) (agree_eye (num_nodes_of N) (num_nodes_of N') A) HM HM') as (P1 & P2 & _).
  now split.
Qed.
(* 0 and 1 are in contact from 0 to 3, given as two overlapping events; in the network of C37 node 1 meets node 2 from 3 on, in the other network nothing else happens *)
Definition only01 : net := mkNet [(0%nat, ev 0 1 0 2); (1%nat, ev 1 0 1 3)] [0; 1]%nat.
Example C195_merged_applies : make_net 0 true false [1; 0; 2; 0]%nat [0; 1; 1; 1]%nat [qn 1; qn 0; qn 3; qn 4] [qn 4; qn 2; qn 5; qn 6] = Some net37s /\ simple_overlaps (rows net37s) /\
  make_net 0 true false [0; 1]%nat [1; 0]%nat [qn 0; qn 1] [qn 2; qn 3] = Some only01 /\ ids_ok only01 = true /\ no_self_contact (rows only01) /\ lasting (rows only01) /\ simple_overlaps (rows only01) /\
  (exists N N', make_net 9 true true [1; 0; 2; 0]%nat [0; 1; 1; 1]%nat [qn 1; qn 0; qn 3; qn 4] [qn 4; qn 2; qn 5; qn 6] = Some N /\ make_net 9 true true [0; 1]%nat [1; 0]%nat [qn 0; qn 1] [qn 2; qn 3] = Some N' /\
    In (qn 0) (times (rows N)) /\ In (qn 0) (times (rows N')) /\ In (qn 3) (times (rows N)) /\ In (qn 3) (times (rows N')) /\ (forall i, pair01 i = true -> (i < num_nodes_of N)%nat /\ (i < num_nodes_of N')%nat)) /\
  (forall i j u, pair01 i = true -> (qn 0 <= u)%num -> (u < qn 3)%num -> (contact (rows net37s) i j u <-> contact (rows only01) i j u) /\ (contact (rows net37s) i j u -> pair01 j = true)).
Proof.
  split; [apply C37_applies|]. split; [apply C37_applies|]. split; [reflexivity|]. split; [reflexivity|]. split; [intros e; in_cases; cbn; lia|]. split; [intros e; in_cases; vm_compute; reflexivity|].
  assert (E01 : forall e f, In e (map snd (rows only01)) -> In f (map snd (rows only01)) -> e = f \/ (e = ev 0 1 0 2 /\ f = ev 1 0 1 3) \/ (e = ev 1 0 1 3 /\ f = ev 0 1 0 2)).
  { intros e f He Hf. cbn [only01 rows map snd In] in He, Hf. destruct He as [<-|[<-|[]]], Hf as [<-|[<-|[]]]; auto. }
  assert (OV : forall e f, In e (map snd (rows only01)) -> In f (map snd (rows only01)) -> overlap e f).
  { intros e f He Hf. cbn [only01 rows map snd In] in He, Hf. destruct He as [<-|[<-|[]]], Hf as [<-|[<-|[]]]; split; vm_compute; reflexivity. }
  split; [split; [|split]|split].
  - intros a b e f Ha Hb Hab _ _. cbn [only01 rows In] in Ha, Hb. destruct Ha as [Ha|[Ha|[]]], Hb as [Hb|[Hb|[]]]; injection Ha as <- <-; injection Hb as <- <-; try congruence; vm_compute; discriminate.
  - intros e f g0 He _ Hg _ _ _ _. now apply OV.
  - intros e f He Hf _ _ Hlt. destruct (E01 e f He Hf) as [->|[[-> ->]|[-> ->]]]; [qlra| |vm_compute in Hlt; discriminate]. vm_compute. discriminate.
  - eexists. eexists. split; [reflexivity|]. split; [reflexivity|].
    repeat (split; [cbn; tauto || (vm_compute; tauto)|]). intros i Hi. unfold pair01 in Hi. apply Nat.ltb_lt in Hi. cbn. lia.
  - intros i j u Hi H1 H2. unfold pair01 in *. apply Nat.ltb_lt in Hi. split; [split|]; intros (e & He & HJ & HA).
    + assert (K : joins (ev 0 1 0 2) i j \/ joins (ev 1 0 1 3) i j).
      { cbn [net37s rows map snd In] in He. destruct HA as [HA _]. destruct He as [<-|[<-|[<-|[<-|[]]]]]; cbn [ev e_start] in HA; try (exfalso; assert (qn 3 < qn 4)%num by reflexivity; qlra); auto. }
      destruct (qltb_spec u (qn 2)) as [Hu|Hu].
      * exists (ev 0 1 0 2). split; [now left|]. split; [unfold joins in *; cbn in *; lia|now split].
      * exists (ev 1 0 1 3). split; [right; now left|]. split; [unfold joins in *; cbn in *; lia|]. split; [cbn [ev e_start]; assert (qn 1 < qn 2)%num by reflexivity; qlra|exact H2].
    + cbn [only01 rows map snd In] in He. destruct He as [<-|[<-|[]]].
      * exists (ev 0 1 0 2). split; [now left|now split].
      * exists (ev 1 0 1 4). split; [right; now left|]. split; [exact HJ|]. destruct HA as [HA HB]. split; [exact HA|]. cbn [ev e_end] in *. assert (qn 3 < qn 4)%num by reflexivity. qlra.
    + apply Nat.ltb_lt. cbn [net37s rows map snd In] in He. destruct HA as [HA _]. destruct He as [<-|[<-|[<-|[<-|[]]]]]; cbn [ev e_start] in HA; unfold joins in HJ; cbn [ev e_src e_tgt] in HJ; try lia. exfalso. qlra.
Qed.
Print Assumptions C195_merged.
