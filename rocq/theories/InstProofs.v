(** Lemmas on networks of instantaneous events. *)
From Verif Require Import Base PartitionModel LouvainModel EventsModel EventsSpec EventsProofs LaplacianProofs.

Lemma Wf_ext n (on on' : graph) s : (forall i j, on' i j = on i j) -> Wf n on s -> Wf n on' s.
Proof.
  intros H [HA Hsym Hirr Hlt Hdeg HS HD].
  assert (D : forall i, degree n on' i = degree n on i) by (intros; apply degree_ext; auto).
  constructor; intros; rewrite ?D, ?H; auto. rewrite H in *. eauto.
Qed.
Lemma inst_event_Wf n (on : graph) s e (b : bool) : Wf n on s -> e_src e <> e_tgt e -> e_src e < n -> e_tgt e < n ->
  Wf n (if b then put e true on else on) (inst_event e b s).
Proof.
  intros W Hne Hi Hj. unfold inst_event. destruct b; cbn [andb]; [|assumption].
  rewrite (wf_A _ _ _ W), qeqb_ind. destruct (on (e_src e) (e_tgt e)) eqn:E; cbn [negb].
  - apply (Wf_ext n on); [|assumption]. intros i j. apply put_same; [apply W|assumption].
  - destruct (connect_mid n on s e W Hne Hi Hj) as ((MA & MD) & ES & ED). cbn zeta.
    set (s1 := connect (e_src e) (e_tgt e) s) in *. destruct W as [HA Hsym Hirr Hlt Hdeg HS HD].
    assert (D1 : degree n (put e true on) (e_src e) = S (degree n on (e_src e))) by (apply (degree_join n on e _ (e_tgt e)); auto using joins_src_tgt).
    assert (D2 : degree n (put e true on) (e_tgt e) = S (degree n on (e_tgt e))) by (apply (degree_join n on e _ (e_src e)); auto using joins_tgt_src; now rewrite Hsym).
    constructor; cbn [l_A l_deg l_S l_D].
    + exact MA.
    + intros i j. unfold put. rewrite joinsb_sym. now rewrite Hsym.
    + intros i. unfold put. destruct (joinsb e i i) eqn:EJ; [|apply Hirr]. apply joinsb_spec in EJ. unfold joins in EJ. exfalso. intuition congruence.
    + intros i j. unfold put. destruct (joinsb e i j) eqn:EJ; [|apply Hlt]. intros _. apply joinsb_spec in EJ as [[<- <-] | [<- <-]]; assumption.
    + exact MD.
    + intros i. unfold set1. destruct (Nat.eqb_spec i (e_tgt e)) as [-> |]; [now rewrite D2|].
      destruct (Nat.eqb_spec i (e_src e)) as [-> |]; [now rewrite D1|]. rewrite ES, HS. now rewrite degree_put.
    + intros i. unfold set1. destruct (Nat.eqb_spec i (e_tgt e)) as [-> |]; [now rewrite MD, D2|].
      destruct (Nat.eqb_spec i (e_src e)) as [-> |]; [now rewrite MD, D1|]. rewrite ED, HD. now rewrite degree_put.
Qed.
Lemma inst_rows_Wf n t rs : table_ok n t -> rows_ok t rs -> forall on s, Wf n on s -> exists on' s', inst_rows t rs s = Some s' /\ Wf n on' s' /\
  forall i j, on' i j = true <-> on i j = true \/ exists r e, In r rs /\ g_is_start r = true /\ row_event t r e /\ joins e i j.
Proof.
  intros HT. induction rs as [|r rs IH]; intros HR on s W.
  - exists on, s. split; [reflexivity|split; [assumption|]]. intros i j. split; [tauto|]. intros [H|(r & e & [] & _)]. assumption.
  - cbn [inst_rows]. destruct (row_by_id t (g_id r)) as [e|] eqn:E; [|exfalso; apply (HR r); [now left|assumption]].
    pose proof (row_by_id_some _ _ _ E) as Hin. destruct (HT e) as (H1 & H2 & H3); [apply in_table; eauto|].
    destruct (IH ltac:(intros q Hq; apply HR; now right) _ _ (inst_event_Wf n on s e (g_is_start r) W H1 H2 H3)) as (on' & s' & -> & W' & H').
    exists on', s'. split; [reflexivity|split; [assumption|]]. intros i j. rewrite H'. split.
    + intros [H|(q & f & Hq & Q1 & Q2 & Q3)]; [|right; exists q, f; cbn; auto]. destruct (g_is_start r) eqn:Es; [|now left].
      unfold put in H. destruct (joinsb e i j) eqn:EJ; [|now left]. right. exists r, e. apply joinsb_spec in EJ. cbn. auto.
    + intros [H|(q & f & [<- | Hq] & Q1 & Q2 & Q3)].
      * left. destruct (g_is_start r); [|assumption]. unfold put. now destruct (joinsb e i j).
      * left. rewrite Q1. unfold row_event in Q2. rewrite E in Q2. injection Q2 as <-. unfold put. now rewrite (proj2 (joinsb_spec e i j) Q3).
      * right. exists q, f. auto.
Qed.
Lemma inst_groups_spec n t g ts : table_ok n t -> own_index t -> is_time_grid t g ->
  exists Ls, inst_groups t g ts = Some Ls /\
    Forall2 (fun u L => exists on s, Wf n on s /\ (forall i j, on i j = true <-> starting t i j u) /\ L = laplacian s) ts Ls.
Proof.
  intros HT HO HG. induction ts as [|u ts IH]; [exists []; split; [reflexivity|constructor]|]. cbn [inst_groups]. fold (group g u).
  destruct (inst_rows_Wf n t (group g u) HT (group_rows_ok t g u HG HO) _ _ (lstate0_Wf n)) as (on & s & -> & W & H).
  destruct IH as (Ls & -> & HF). eexists. split; [reflexivity|]. constructor; [|assumption]. exists on, s. split; [assumption|split; [|reflexivity]].
  intros i j. rewrite H. split.
  - intros [K|(r & e & Hr & R1 & R2 & R3)]; [discriminate|]. apply (group_in t g u r HG) in Hr as [Hr Hu]. apply grid_row_in in Hr as (f & Hf & Ef).
    rewrite R1 in Ef. pose proof (row_by_id_own t _ f HO Hf) as K. unfold row_event in R2. rewrite K in R2. injection R2 as <-.
    exists f. split; [apply in_table; eauto|split; [assumption|congruence]].
  - intros (e & He & HJ & Hu). apply in_table in He as [a Ha]. right. exists (mkRow (e_start e) a true), e.
    split; [apply (group_in t g u _ HG); split; [now apply grid_row_start|assumption]|]. split; [reflexivity|split; [|assumption]].
    now apply row_by_id_own.
Qed.
Lemma inst_laplacians_spec N g a b : rows N <> [] -> ids_ok N = true -> no_self_contact (rows N) -> own_index (rows N) -> is_time_grid (rows N) g ->
  exists ka kb Ls, inst_laplacians N g a b = Some (ka, kb, Ls) /\ start_index (times (rows N)) a ka /\ stop_index (times (rows N)) b kb /\ length Ls = kb - ka /\
    forall k, k < kb - ka -> walk_laplacian (num_nodes_of N) (fun i j => starting (rows N) i j (nth (ka + k) (times (rows N)) 0%num)) (nth k Ls (fun _ _ => 0%num)).
Proof.
  intros Hne Hids Hself HO HG. set (ts := times (rows N)). pose proof (times_sorted (rows N)) as HS. fold ts in HS.
  assert (HT : table_ok (num_nodes_of N) (rows N)). { intros e He. split; [now apply Hself|]. now apply ids_ok_spec. }
  destruct (window_spec ts a b HS (times_nonempty _ Hne)) as (ka & kb & Ha & Hb & EW & HA & HB). exists ka, kb.
  unfold inst_laplacians. fold ts. rewrite EW, Hids. rewrite window_filter by assumption.
  destruct (inst_groups_spec (num_nodes_of N) (rows N) g (skipn ka (firstn kb ts)) HT HO HG) as (Ls & -> & HF).
  exists Ls. split; [reflexivity|]. do 2 (split; [assumption|]).
  assert (LL : length (skipn ka (firstn kb ts)) = kb - ka) by (rewrite skipn_length, firstn_length; lia).
  pose proof (Forall2_len _ _ _ HF) as HLen. split; [lia|]. intros k Hk. rewrite <- (segment_nth ts ka kb k) by lia.
  assert (G : exists on s, Wf (num_nodes_of N) on s /\ (forall i j, on i j = true <-> starting (rows N) i j (nth k (skipn ka (firstn kb ts)) 0%num)) /\ nth k Ls (fun _ _ => 0%num) = laplacian s).
  { clear - HF Hk LL. rewrite <- LL in Hk. clear LL. revert k Hk. induction HF as [|u L us Ls H HF IH]; intros k Hk; [cbn in Hk; lia|].
    destruct k as [|k]; cbn [nth]; [exact H|]. apply IH. cbn in Hk. lia. }
  destruct G as (on & s & W & Hon & ->). exists on. split; [intros; apply Hon|]. intros. now apply laplacian_walk.
Qed.

(** * Ending times *)
Lemma end_map_spec us t : StronglySorted Qclt us -> In t us -> exists v, end_map us t = Some v /\ is_next us t v /\ (In v us \/ v = (last us 0 + 1)%num).
Proof.
  induction 1 as [|u us H IH F]; [intros []|]. intros Ht. rewrite Forall_forall in F. destruct us as [|v us].
  - destruct Ht as [-> | []]. cbn. destruct (qeqb_spec t t); [|congruence]. eexists. split; [reflexivity|]. split; [|now right]. right. split; [reflexivity|]. intros x [<- | []]. qlra.
  - cbn [end_map]. destruct (qeqb_spec t u) as [-> |Hne].
    + exists v. split; [reflexivity|]. split; [|left; right; now left]. left. split; [right; now left|]. split; [apply F; now left|]. intros x [<- | Hx]; [left; qlra|]. right.
      destruct Hx as [<- | Hx]; [qlra|]. apply StronglySorted_inv in H as [_ H]. rewrite Forall_forall in H. specialize (H x Hx). qlra.
    + destruct Ht as [-> | Ht]; [congruence|]. destruct (IH Ht) as (w & E & HN & HL). exists w. split; [exact E|]. split.
      * destruct HN as [(H1 & H2 & H3) | (H1 & H2)].
        -- left. split; [now right|]. split; [assumption|]. intros x [<- | Hx]; [left; specialize (F t Ht); qlra|now apply H3].
        -- right. split; [assumption|]. intros x [<- | Hx]; [specialize (F t Ht); qlra|now apply H2].
      * destruct HL as [HL|HL]; [left; now right|right; exact HL].
Qed.
Lemma is_next_ext l m a b : (forall x, In x l <-> In x m) -> is_next l a b -> is_next m a b.
Proof.
  intros H [(H1 & H2 & H3) | (H1 & H2)]; [left|right]; repeat split; auto; try (apply H; assumption); intros x Hx; [apply H3|apply H2]; now apply H.
Qed.
Lemma inst_ends starts : starts <> [] -> exists ends, inst_ending_times starts = Some ends /\ Forall2 (fun a b => is_next starts a b /\ (In b starts \/ b = (last (uniq_times starts) 0 + 1)%num)) starts ends.
Proof.
  intros Hne. unfold inst_ending_times. destruct starts as [|s0 starts]; [congruence|]. cbn [nonempty negb]. set (l := s0 :: starts).
  assert (HF : forall t, In t l -> exists v, end_map (uniq_times l) t = Some v /\ is_next l t v /\ (In v l \/ v = (last (uniq_times l) 0 + 1)%num)).
  { intros t Ht. destruct (end_map_spec (uniq_times l) t (uniq_times_sorted l)) as (v & E & HN & HL); [now apply uniq_times_in|]. exists v. split; [assumption|]. split; [|now rewrite <- (uniq_times_in l)].
    apply (is_next_ext (uniq_times l)); [intros; apply uniq_times_in|assumption]. }
  destruct (all_some_ex (end_map (uniq_times l)) l) as [r Er]; [intros a Ha; destruct (HF a Ha) as (v & -> & _); discriminate|].
  exists r. split; [exact Er|]. apply all_some_map in Er.
  assert (G : forall m r, incl m l -> map (end_map (uniq_times l)) m = map Some r -> Forall2 (fun a b => is_next l a b /\ (In b l \/ b = (last (uniq_times l) 0 + 1)%num)) m r).
  { induction m as [|a m IH]; intros [|b r'] HI E; try discriminate; constructor.
    - cbn [map] in E. destruct (HF a (HI a (or_introl eq_refl))) as (v & Ev & Hv). rewrite Ev in E. injection E as <- _. exact Hv.
    - apply IH; [intros x Hx; apply HI; now right|]. cbn [map] in E. now injection E. }
  apply G; [now intros x|assumption].
Qed.
(** the strictly sorted list with given members is unique *)
Lemma qsorted_unique l m : StronglySorted Qclt l -> StronglySorted Qclt m -> (forall x, In x l <-> In x m) -> l = m.
Proof.
  intros Hl. revert m. induction Hl as [|a l Hl IH F]; intros m Hm H.
  - destruct m as [|b m]; [reflexivity|]. exfalso. apply (H b). now left.
  - destruct m as [|b m]; [exfalso; apply (H a); now left|]. apply StronglySorted_inv in Hm as [Hm G]. rewrite Forall_forall in F, G.
    assert (a = b).
    { assert (Ha : In a (b :: m)) by (apply H; now left). assert (Hb : In b (a :: l)) by (apply H; now left).
      destruct Ha as [|Ha]; [congruence|]. destruct Hb as [|Hb]; [congruence|]. specialize (F b Hb). specialize (G a Ha). qlra. }
    subst b. f_equal. apply IH; [assumption|]. intros x. split; intros Hx.
    + assert (K : In x (a :: m)) by (apply H; now right). destruct K as [-> |K]; [specialize (F x Hx); qlra|assumption].
    + assert (K : In x (a :: l)) by (apply H; now right). destruct K as [-> |K]; [specialize (G x Hx); qlra|assumption].
Qed.
Lemma sorted_snoc l x : StronglySorted Qclt l -> (forall y, In y l -> (y < x)%num) -> StronglySorted Qclt (l ++ [x]).
Proof.
  induction 1 as [|a l H IH F]; intros Hx; cbn; [repeat constructor|]. constructor; [apply IH; intros; apply Hx; now right|].
  rewrite Forall_forall in *. intros y Hy. apply in_app_iff in Hy as [Hy|[<- | []]]; [now apply F|apply Hx; now left].
Qed.
Lemma sorted_last_max l d x : StronglySorted Qclt l -> In x l -> (x <= last l d)%num.
Proof.
  intros H. revert x. induction H as [|a l H IH F]; [intros ? []|]. rewrite Forall_forall in F. intros x Hx. destruct l as [|b l].
  - destruct Hx as [<- | []]. cbn. qlra.
  - change (last (a :: b :: l) d) with (last (b :: l) d). destruct Hx as [<- | Hx]; [|now apply IH].
    specialize (F b (or_introl eq_refl)). specialize (IH b (or_introl eq_refl)). qlra.
Qed.
Lemma last_In {A} (l : list A) d : l <> [] -> In (last l d) l.
Proof. induction l as [|a l IH]; [congruence|]. intros _. destruct l as [|b l]; [now left|]. right. apply IH. discriminate. Qed.

(** * The network *)
Lemma Forall2_combine_zip srcs tgts starts ends evs (R : num -> num -> Prop) : zip_events srcs tgts starts ends = Some evs -> Forall2 R starts ends ->
  forall e, In e evs -> R (e_start e) (e_end e).
Proof.
  intros E HF. revert srcs tgts evs E. induction HF as [|a b starts ends H HF IH]; intros srcs tgts evs E e He.
  - destruct srcs, tgts; cbn in E; try discriminate. injection E as <-. contradiction.
  - destruct srcs as [|s srcs], tgts as [|t tgts]; cbn in E; try discriminate. destruct (zip_events srcs tgts starts ends) as [r|] eqn:Er; [|discriminate].
    injection E as <-. destruct He as [<- | He]; [exact H|]. now apply (IH srcs tgts r).
Qed.
Definition same_but_duration (e f : event) : Prop := e_src e = e_src f /\ e_tgt e = e_tgt f /\ e_start e = e_start f /\ e_end e = e_end f.
Lemma make_inst_net_spec reset srcs tgts starts : starts <> [] -> length srcs = length starts -> length tgts = length starts ->
  exists N t evs ends, make_inst_net reset srcs tgts starts = Some N /\ inst_ending_times starts = Some ends /\ zip_events srcs tgts starts ends = Some evs /\ build_table reset srcs tgts starts ends = Some t /\ Permutation (map snd t) evs /\ own_index (rows N) /\ nodes N = node_array t /\ rows N = map (fun r => (fst r, mkEv (e_src (snd r)) (e_tgt (snd r)) (e_start (snd r)) (e_end (snd r)) 1%num)) t /\ Forall2 (fun a b => is_next starts a b /\ (In b starts \/ b = (last (uniq_times starts) 0 + 1)%num)) starts ends.
Proof.
  intros Hne H1 H2. destruct (inst_ends starts Hne) as (ends & Ee & HF). pose proof (Forall2_len _ _ _ HF) as HL.
  destruct (zip_events_ex srcs tgts starts ends) as [evs Ez]; try lia.
  unfold make_inst_net, make_net. rewrite Ee. destruct (build_table reset srcs tgts starts ends) as [t|] eqn:Eb.
  - destruct (build_table_perm _ _ _ _ _ _ Eb) as (evs' & Ez' & HP & HO & _). rewrite Ez in Ez'. injection Ez' as <-.
    eexists _, t, evs, ends. split; [reflexivity|]. do 3 (split; [assumption || reflexivity|]). split; [exact HP|]. split; [|split; [reflexivity|split; [reflexivity|assumption]]].
    unfold own_index. cbn [rows]. rewrite map_map. exact HO.
  - exfalso. unfold build_table in Eb. rewrite Ez in Eb. discriminate.
Qed.
