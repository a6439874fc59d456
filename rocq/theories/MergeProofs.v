(** Lemmas on merging overlapping events. *)
From Verif Require Import Base PartitionModel PartitionProofs LouvainModel EventsModel EventsSpec EventsProofs LaplacianProofs.

Definition with_end (e : event) (v : num) : event := mkEv (e_src e) (e_tgt e) (e_start e) v (e_dur e).
Definition shape (r : nat * event) : nat * nat * nat * num := (fst r, e_src (snd r), e_tgt (snd r), e_start (snd r)).
Definition table_reset (t : table) : Prop := map fst t = seq 0 (length t).
Definition ordered (t : table) : Prop := forall e, In e (map snd t) -> (e_start e <= e_end e)%num.

Lemma set_end_shape t id v : map shape (set_end t id v) = map shape t.
Proof. unfold set_end. rewrite map_map. apply map_ext. intros r. now destruct (fst r =? id). Qed.
Lemma set_end_in t id v a e' : In (a, e') (set_end t id v) -> exists e, In (a, e) t /\ e' = if a =? id then with_end e v else e.
Proof.
  unfold set_end. rewrite in_map_iff. intros ([b e] & E & H). cbn [fst snd] in E. exists e. destruct (b =? id) eqn:Eb; injection E as <- <-; rewrite Eb; now split.
Qed.
Lemma shape_in t t' a e' : map shape t' = map shape t -> In (a, e') t' -> exists e, In (a, e) t /\ e_src e' = e_src e /\ e_tgt e' = e_tgt e /\ e_start e' = e_start e.
Proof.
  intros E H. apply (in_map shape) in H. rewrite E in H. apply in_map_iff in H as ([b e] & K & H). unfold shape in K. cbn in K. injection K as -> K1 K2 K3. exists e. auto.
Qed.
Lemma shape_fst t t' : map shape t' = map shape t -> map fst t' = map fst t.
Proof.
  intros E. assert (G : forall l : table, map fst l = map (fun x => fst (fst (fst x))) (map shape l)) by (intros; rewrite map_map; reflexivity).
  rewrite (G t), (G t'). now rewrite E.
Qed.
Lemma shape_length t t' : map shape t' = map shape t -> length t' = length t.
Proof. intros E. rewrite <- (map_length shape), E. apply map_length. Qed.
Lemma own_unique t a e f : own_index t -> In (a, e) t -> In (a, f) t -> e = f.
Proof. intros H H1 H2. pose proof (row_by_id_own t a e H H1). pose proof (row_by_id_own t a f H H2). congruence. Qed.
Lemma reset_own t : table_reset t -> own_index t.
Proof. unfold table_reset, own_index. intros ->. apply seq_NoDup. Qed.
Lemma reset_lt t a e : table_reset t -> In (a, e) t -> a < length t.
Proof. intros H Hin. apply (in_map fst) in Hin. rewrite H in Hin. apply in_seq in Hin. cbn in Hin. lia. Qed.

(** the rows of one pair in the order of merging *)
Definition pair_rows (n1 n2 : nat) (t : table) : table := sort_rows (filter (fun r => same_pair n1 n2 (snd r)) t).
Lemma pair_rows_in n1 n2 t r : In r (pair_rows n1 n2 t) <-> In r t /\ joins (snd r) n1 n2.
Proof.
  unfold pair_rows. split.
  - intros H. apply (Permutation_in _ (sort_rows_perm _)) in H. apply filter_In in H as [H1 H2]. split; [assumption|]. now apply joinsb_spec.
  - intros [H1 H2]. apply (Permutation_in _ (Permutation_sym (sort_rows_perm _))). apply filter_In. split; [assumption|]. apply joinsb_spec in H2. exact H2.
Qed.
Lemma pair_rows_sorted n1 n2 t : StronglySorted row_ev_le (pair_rows n1 n2 t).
Proof. apply sort_rows_sorted. Qed.
Lemma ev_le_start e f : ev_le e f -> (e_start e <= e_start f)%num.
Proof. intros [H|[-> _]]; qlra. Qed.

(** * Soundness: merging invents no contact *)
Definition bounded (t0 t : table) : Prop := map shape t = map shape t0 /\
  forall a e', In (a, e') t -> (e_start e' <= e_end e')%num /\ (lasting t0 -> (e_start e' < e_end e')%num) /\
    forall u, active e' u -> contact t0 (e_src e') (e_tgt e') u.
Lemma bounded_refl t : ordered t -> bounded t t.
Proof.
  intros H. split; [reflexivity|]. intros a e He. assert (Hin : In e (map snd t)) by (apply in_table; eauto).
  split; [now apply H|split; [intros HL; now apply HL|]]. intros u Hu. exists e. split; [assumption|split; [apply joins_src_tgt|assumption]].
Qed.
Lemma contact_joins t e f u i j : contact t (e_src e) (e_tgt e) u -> e_src f = e_src e -> e_tgt f = e_tgt e -> joins f i j -> contact t i j u.
Proof. intros (g & H1 & H2 & H3) E1 E2 HJ. exists g. split; [assumption|split; [|assumption]]. unfold joins in *. intuition congruence. Qed.
Lemma bounded_contact t0 t i j u : bounded t0 t -> contact t i j u -> contact t0 i j u.
Proof. intros [_ H] (e & He & HJ & HA). apply in_table in He as [a Ha]. destruct (H a e Ha) as (_ & _ & K). apply (contact_joins t0 e e u i j (K u HA)); auto. Qed.
Lemma bounded_trans t0 t1 t2 : bounded t0 t1 -> bounded t1 t2 -> bounded t0 t2.
Proof.
  intros H01 [E2 H2]. pose proof H01 as [E1 H1]. split; [congruence|]. intros a e He. destruct (H2 a e He) as (K1 & K2 & K3). split; [assumption|split].
  - intros HL. apply K2. intros f Hf. apply in_table in Hf as [b Hb]. now apply (H1 b f Hb).
  - intros u Hu. apply (bounded_contact t0 t1); [assumption|now apply K3].
Qed.
Lemma joins_same e f i j : joins e i j -> joins f i j -> joins f (e_src e) (e_tgt e).
Proof. unfold joins. intuition (subst; auto). Qed.
Lemma nth_upd_keep k b (keep : list bool) x : nth k (upd keep x b) true = if (k =? x) && (x <? length keep) then b else nth k keep true.
Proof.
  revert k x. induction keep as [|c keep IH]; intros k x; [destruct x; cbn; rewrite andb_false_r; now destruct k|].
  destruct x as [|x], k as [|k]; cbn [upd nth length]; try reflexivity. rewrite IH. reflexivity.
Qed.
Lemma merge_loop_sound t0 n1 n2 : own_index t0 -> ordered t0 -> forall evs ev1 t keep,
  StronglySorted row_ev_le (ev1 :: evs) -> (forall r, In r (ev1 :: evs) -> In r t0 /\ joins (snd r) n1 n2 /\ fst r < length keep) -> bounded t0 t ->
  exists t' keep', merge_loop ev1 evs t keep = Some (t', keep') /\ bounded t0 t' /\ length keep' = length keep /\
    (forall k, nth k keep true = false -> nth k keep' true = false) /\
    ((forall k, nth k keep' true = true) -> t' = t /\ keep' = keep /\ Sorted (fun x y => (e_end (snd x) <= e_start (snd y))%num) (ev1 :: evs)).
Proof.
  intros HO HOrd. induction evs as [|ev2 evs IH]; intros ev1 t keep HS Hin HB.
  - exists t, keep. cbn [merge_loop]. do 4 (split; [now auto|]). intros _. split; [reflexivity|split; [reflexivity|repeat constructor]].
  - cbn [merge_loop]. pose proof HS as HS0. apply StronglySorted_inv in HS as [HS HF]. apply Forall_inv in HF as H12. 
    destruct (Hin ev1 (or_introl eq_refl)) as (A1 & A2 & A3). destruct (Hin ev2 (or_intror (or_introl eq_refl))) as (B1 & B2 & B3).
    destruct (qltb_spec (e_start (snd ev2)) (e_end (snd ev1))) as [Hlt|Hge].
    + destruct (Nat.ltb_spec (fst ev2) (length keep)); [|lia].
      destruct (IH ev1 (set_end t (fst ev1) (e_end (snd ev2))) (upd keep (fst ev2) false)) as (t' & keep' & E & H1 & H2 & H3 & H4).
      * constructor; [now apply StronglySorted_inv in HS|]. now apply Forall_inv_tail in HF.
      * intros r Hr. rewrite upd_length. apply Hin. destruct Hr as [<- | Hr]; [now left|right; now right].
      * destruct HB as [EB HB]. split; [now rewrite set_end_shape|]. intros a e' He'. apply set_end_in in He' as (e & He & ->).
        destruct (Nat.eqb_spec a (fst ev1)) as [-> |]; [|now apply (HB a)].
        destruct (shape_in t0 t (fst ev1) e EB He) as (e0 & He0 & S1 & S2 & S3).
        assert (e0 = snd ev1) by (apply (own_unique t0 (fst ev1)); [assumption|assumption|now destruct ev1]). subst e0.
        cbn [with_end e_start e_end e_src e_tgt]. rewrite S1, S2, S3. pose proof (ev_le_start _ _ H12) as Hs.
        assert (I1 : In (snd ev1) (map snd t0)) by now apply in_map. assert (I2 : In (snd ev2) (map snd t0)) by now apply in_map.
        pose proof (HOrd _ I2) as O2. split; [qlra|]. split; [intros HL; specialize (HL _ I2); qlra|]. intros u [U1 U2]. cbn in U1, U2. rewrite S3 in U1.
        destruct (Qclt_le_dec u (e_end (snd ev1))).
        -- exists (snd ev1). split; [assumption|split; [apply joins_src_tgt|now split]].
        -- exists (snd ev2). split; [assumption|split; [now apply (joins_same _ _ n1 n2)|split; qlra]].
      * exists t', keep'. split; [exact E|]. split; [assumption|]. split; [now rewrite H2, upd_length|].
        assert (HK : forall k, nth k (upd keep (fst ev2) false) true = false -> nth k keep' true = false) by assumption.
        split.
        -- intros k Hk. apply HK. rewrite nth_upd_keep. now destruct (_ && _).
        -- intros Hall. exfalso. specialize (HK (fst ev2)). rewrite nth_upd_keep, Nat.eqb_refl in HK. destruct (Nat.ltb_spec (fst ev2) (length keep)); [|lia].
           cbn in HK. rewrite Hall in HK. specialize (HK eq_refl). discriminate.
    + destruct (IH ev2 t keep HS) as (t' & keep' & E & H1 & H2 & H3 & H4).
      * intros r Hr. apply Hin. now right.
      * assumption.
      * exists t', keep'. split; [exact E|]. repeat (split; [assumption|]). intros Hall. destruct (H4 Hall) as (-> & -> & HSo). repeat split; auto.
        constructor; [assumption|]. constructor. qlra.
Qed.

(** * Groups of overlapping events *)
Section Groups.
Context (t0 : table) (n1 n2 : nat).
Definition pr (x : nat * event) : Prop := In x t0 /\ joins (snd x) n1 n2.
Definition ov (x y : nat * event) : Prop := overlap (snd x) (snd y).
(** no event of the pair overlapping x starts earlier *)
Definition leader (x : nat * event) : Prop := forall z, pr z -> ov x z -> (e_start (snd x) <= e_start (snd z))%num.
Context (HO : own_index t0) (HL : lasting t0)
  (K1 : forall x y, pr x -> pr y -> x <> y -> ov x y -> e_start (snd x) <> e_start (snd y))
  (K2 : forall x y z, pr x -> pr y -> pr z -> ov x y -> ov y z -> ov x z)
  (K3 : forall x y, pr x -> pr y -> ov x y -> (e_start (snd x) < e_start (snd y))%num ->
     (forall z, pr z -> ov y z -> (e_start (snd z) <= e_start (snd y))%num) -> (e_end (snd x) <= e_end (snd y))%num).
Lemma pr_lasting x : pr x -> (e_start (snd x) < e_end (snd x))%num.
Proof. intros [H _]. apply HL. now apply in_map. Qed.
Lemma ov_sym x y : ov x y -> ov y x.
Proof. intros []. now split. Qed.
Lemma pr_id x y : pr x -> pr y -> fst x = fst y -> x = y.
Proof. destruct x as [a e], y as [b f]. intros [H1 _] [H2 _] E. cbn in E. subst b. f_equal. now apply (own_unique t0 a). Qed.
(** the table during the loop: only leaders change, and they end with an event of their group *)
Definition grown (t : table) : Prop := map shape t = map shape t0 /\
  forall a e', In (a, e') t -> exists e, In (a, e) t0 /\
    (e' = e \/ (pr (a, e) /\ leader (a, e) /\ exists b, pr b /\ (b = (a, e) \/ ov (a, e) b) /\ e' = with_end e (e_end (snd b)))).
Definition full (t : table) (c : nat * event) : Prop :=
  forall e', In (fst c, e') t -> forall x, pr x -> x = c \/ ov c x -> (e_end (snd x) <= e_end e')%num.
Lemma sorted_app_le (l m : table) x y : StronglySorted row_ev_le (l ++ m) -> In x l -> In y m -> (e_start (snd x) <= e_start (snd y))%num.
Proof.
  induction l as [|a l IH]; intros HS Hx Hy; [contradiction|]. cbn in HS. apply StronglySorted_inv in HS as [HS HF]. rewrite Forall_forall in HF.
  destruct Hx as [<- | Hx]; [|now apply IH]. apply ev_le_start, HF. apply in_or_app. now right.
Qed.
Lemma loop_groups : forall evs done ev1 cur t keep,
  pair_rows n1 n2 t0 = done ++ evs -> NoDup (done ++ evs) -> (forall x, pr x -> fst x < length keep) ->
  In ev1 done -> In cur done -> (cur = ev1 \/ ov ev1 cur) -> (forall c, In c done -> (e_start (snd c) <= e_start (snd cur))%num) ->
  (forall c, In c done -> c = ev1 \/ ov c ev1 \/ (e_end (snd c) <= e_start (snd ev1))%num) ->
  leader ev1 -> grown t -> (forall e', In (fst ev1, e') t -> e_end e' = e_end (snd cur)) ->
  (forall c, In c done -> leader c -> c <> ev1 -> full t c) ->
  (forall c e', In c evs -> In (fst c, e') t -> e' = snd c) ->
  (forall c, In c done -> leader c \/ nth (fst c) keep true = false) ->
  exists t' keep', merge_loop ev1 evs t keep = Some (t', keep') /\ grown t' /\ (forall c, pr c -> leader c -> full t' c) /\
    (forall c, pr c -> leader c \/ nth (fst c) keep' true = false) /\
    (forall k, nth k keep' true = false -> nth k keep true = false \/ exists c, pr c /\ fst c = k /\ ~ leader c).
Proof.
  assert (Hpr : forall l m x, pair_rows n1 n2 t0 = l ++ m -> In x l \/ In x m -> pr x).
  { intros l m x E Hx. apply pair_rows_in. rewrite E. now apply in_or_app. }
  assert (Hpr2 : forall l m x, pair_rows n1 n2 t0 = l ++ m -> pr x -> In x l \/ In x m).
  { intros l m x E Hx. apply in_app_iff. rewrite <- E. now apply pair_rows_in. }
  (* the current leader is complete when no remaining event overlaps it *)
  assert (Hfull : forall evs done ev1 cur t, pair_rows n1 n2 t0 = done ++ evs -> In ev1 done -> In cur done -> (cur = ev1 \/ ov ev1 cur) ->
    (forall c, In c done -> (e_start (snd c) <= e_start (snd cur))%num) -> (forall e', In (fst ev1, e') t -> e_end e' = e_end (snd cur)) ->
    (forall z, In z evs -> ~ ov ev1 z) -> full t ev1).
  { intros evs done ev1 cur t E H1 Hc Hcur Hmax Hend Hno e' He' x Hx Hov. rewrite (Hend e' He').
    pose proof (Hpr _ _ _ E (or_introl H1)) as P1. pose proof (Hpr _ _ _ E (or_introl Hc)) as Pc.
    assert (Hself : forall y, pr y -> ov y y) by (intros y Hy; split; now apply pr_lasting).
    assert (Hov1 : ov ev1 x) by (destruct Hov as [-> |]; auto). assert (Hovc : ov ev1 cur) by (destruct Hcur as [-> |]; auto).
    assert (HD : forall z, pr z -> ov ev1 z -> In z done). { intros z Hz Oz. destruct (Hpr2 _ _ z E Hz) as [|K]; [assumption|]. exfalso. now apply (Hno z). }
    assert (Oxc : ov x cur) by (apply (K2 x ev1 cur); auto using ov_sym).
    assert (Hle : (e_start (snd x) <= e_start (snd cur))%num) by (apply Hmax, HD; assumption).
    destruct (Nat.eq_dec (fst x) (fst cur)) as [Ei|Ni]; [rewrite (pr_id x cur Hx Pc Ei); qlra|].
    apply K3; auto.
    - assert (Hne : e_start (snd x) <> e_start (snd cur)) by (apply K1; auto; congruence).
      destruct (Qclt_le_dec (e_start (snd x)) (e_start (snd cur))); [assumption|]. exfalso. apply Hne. now apply Qcle_antisym.
    - intros z Hz Oz. apply Hmax, HD; [assumption|]. apply (K2 ev1 cur z); auto. }
  induction evs as [|ev2 evs IH]; intros done ev1 cur t keep E HN Hlen H1 Hc Hcur Hmax Hdone Hlead Hg Hend Hfin Hnew Hkeep.
  - cbn [merge_loop]. exists t, keep. split; [reflexivity|]. split; [assumption|]. rewrite app_nil_r in E.
    assert (HA : forall c, pr c -> In c done). { intros c Hcc. apply pair_rows_in in Hcc. now rewrite E in Hcc. }
    split; [|split; [intros; auto|intros; now left]]. intros c Pc Lc.
    assert (D : c = ev1 \/ c <> ev1).
    { destruct (Nat.eq_dec (fst c) (fst ev1)) as [Ei|Ni]; [left|right; congruence]. apply pr_id; auto. apply (Hpr done []); [now rewrite app_nil_r|now left]. }
    destruct D as [-> |Hne]; [|apply Hfin; auto]. apply (Hfull [] done ev1 cur); auto. now rewrite app_nil_r.
  - cbn [merge_loop]. pose proof (pair_rows_sorted n1 n2 t0) as HS. rewrite E in HS.
    assert (P1 : pr ev1) by (apply (Hpr _ _ _ E); now left). assert (P2 : pr ev2) by (apply (Hpr _ _ _ E); right; now left).
    assert (Hs12 : forall c, In c done -> (e_start (snd c) <= e_start (snd ev2))%num) by (intros c Hcc; apply (sorted_app_le done (ev2 :: evs)); auto; now left).
    assert (E' : pair_rows n1 n2 t0 = (done ++ [ev2]) ++ evs) by (rewrite <- app_assoc; exact E).
    assert (HN' : NoDup ((done ++ [ev2]) ++ evs)) by (rewrite <- app_assoc; exact HN).
    assert (Hnin : ~ In ev2 done). { intros K. apply NoDup_remove_2 in HN. apply HN. apply in_or_app. now left. }
    pose proof (pr_lasting ev1 P1) as L1. pose proof (pr_lasting ev2 P2) as L2. pose proof (Hs12 ev1 H1) as S12.
    destruct (qltb_spec (e_start (snd ev2)) (e_end (snd ev1))) as [Hlt|Hge].
    + destruct (Nat.ltb_spec (fst ev2) (length keep)) as [_|K]; [|exfalso; specialize (Hlen ev2 P2); lia].
      assert (O12 : ov ev1 ev2) by (split; qlra).
      assert (Hne12 : ev1 <> ev2) by (intros ->; contradiction).
      assert (Hnl : ~ leader ev2).
      { intros K. specialize (K ev1 P1 (ov_sym _ _ O12)). apply (K1 ev1 ev2 P1 P2 Hne12 O12). now apply Qcle_antisym. }
      destruct (IH (done ++ [ev2]) ev1 ev2 (set_end t (fst ev1) (e_end (snd ev2))) (upd keep (fst ev2) false)) as (t' & keep' & EM & R1 & R2 & R3 & R4); auto.
      * intros x Hx. rewrite upd_length. now apply Hlen.
      * apply in_or_app. now left.
      * apply in_or_app. right. now left.
      * intros c Hcc. apply in_app_iff in Hcc as [Hcc|[<- | []]]; [now apply Hs12|qlra].
      * intros c Hcc. apply in_app_iff in Hcc as [Hcc|[<- | []]]; [now apply Hdone|]. right. left. now apply ov_sym.
      * destruct Hg as [G1 G2]. split; [now rewrite set_end_shape|]. intros a e' He'. apply set_end_in in He' as (e & He & ->). destruct (G2 a e He) as (e0 & He0 & HC).
        exists e0. split; [assumption|]. destruct (Nat.eqb_spec a (fst ev1)) as [-> |]; [|assumption].
        assert (e0 = snd ev1) by (apply (own_unique t0 (fst ev1)); [assumption|assumption|]; destruct ev1; apply P1). subst e0.
        right. rewrite <- surjective_pairing. split; [assumption|split; [assumption|]]. exists ev2. split; [assumption|split; [now right|]].
        destruct HC as [-> |(_ & _ & b & _ & _ & ->)]; reflexivity.
      * intros e' He'. apply set_end_in in He' as (e & _ & ->). rewrite Nat.eqb_refl. reflexivity.
      * intros c Hcc Lc Hne e' He'. apply in_app_iff in Hcc as [Hcc|[<- | []]]; [|contradiction]. apply set_end_in in He' as (e & He & ->).
        destruct (Nat.eqb_spec (fst c) (fst ev1)) as [Ei|]; [exfalso; apply Hne; apply pr_id; auto; apply (Hpr _ _ _ E); now left|].
        now apply (Hfin c Hcc Lc Hne).
      * intros c e' Hcc He'. apply set_end_in in He' as (e & He & ->). destruct (Nat.eqb_spec (fst c) (fst ev1)) as [Ei|]; [exfalso|apply Hnew; [now right|assumption]].
        assert (c = ev1) by (apply pr_id; auto; apply (Hpr _ _ _ E); right; now right). subst c.
        apply NoDup_app_iff in HN as (_ & _ & HD). apply (HD ev1 H1). now right.
      * intros c Hcc. rewrite nth_upd_keep. apply in_app_iff in Hcc as [Hcc|[<- | []]].
        -- destruct (Hkeep c Hcc) as [|Hk]; [now left|]. right. now destruct (_ && _).
        -- right. rewrite Nat.eqb_refl. destruct (Nat.ltb_spec (fst ev2) (length keep)); [reflexivity|]. specialize (Hlen ev2 P2). lia.
      * exists t', keep'. repeat (split; [assumption|]). intros k Hk. destruct (R4 k Hk) as [K|K]; [|now right]. rewrite nth_upd_keep in K.
        destruct (Nat.eqb_spec k (fst ev2)) as [-> |]; [right; exists ev2; auto|]. now left.
    + assert (Hge' : (e_end (snd ev1) <= e_start (snd ev2))%num) by (destruct (Qclt_le_dec (e_start (snd ev2)) (e_end (snd ev1))); [contradiction|assumption]).
      assert (Hno12 : ~ ov ev1 ev2) by (intros [_ K]; qlra).
      assert (Hend2 : forall c, In c done -> (e_end (snd c) <= e_start (snd ev2))%num).
      { intros c Hcc. assert (Pc : pr c) by (apply (Hpr _ _ _ E); now left). destruct (Hdone c Hcc) as [-> | [Oc|Hle]]; [assumption| |qlra].
        destruct (Qclt_le_dec (e_start (snd ev2)) (e_end (snd c))) as [Hl|]; [|assumption]. exfalso. apply Hno12. apply (K2 ev1 c ev2); auto using ov_sym.
        split; [|exact Hl]. specialize (Hs12 c Hcc). pose proof L2. qlra. }
      assert (L2' : leader ev2).
      { intros z Hz Oz. destruct (Hpr2 _ _ z E Hz) as [K|[<- | K]]; [|qlra|].
        - destruct Oz as [O1 O2]. specialize (Hend2 z K). exfalso. pose proof (pr_lasting z Hz). qlra.
        - apply (sorted_app_le (done ++ [ev2]) evs); [rewrite <- E'; apply pair_rows_sorted|apply in_or_app; right; now left|assumption]. }
      destruct (IH (done ++ [ev2]) ev2 ev2 t keep) as (t' & keep' & EM & R1 & R2 & R3 & R4); auto.
      * apply in_or_app. right. now left.
      * apply in_or_app. right. now left.
      * intros c Hcc. apply in_app_iff in Hcc as [Hcc|[<- | []]]; [now apply Hs12|qlra].
      * intros c Hcc. apply in_app_iff in Hcc as [Hcc|[<- | []]]; [right; right; now apply Hend2|now left].
      * intros e' He'. now rewrite (Hnew ev2 e' (or_introl eq_refl) He').
      * intros c Hcc Lc Hne. apply in_app_iff in Hcc as [Hcc|[<- | []]]; [|congruence].
        assert (D : c = ev1 \/ c <> ev1). { destruct (Nat.eq_dec (fst c) (fst ev1)) as [Ei|Ni]; [left|right; congruence]. apply pr_id; auto. apply (Hpr _ _ _ E). now left. }
        destruct D as [-> |Hne1]; [|now apply Hfin]. apply (Hfull (ev2 :: evs) done ev1 cur); auto.
        intros z Hz [_ Oz]. assert (e_start (snd ev2) <= e_start (snd z))%num; [|qlra]. destruct Hz as [<- | Hz]; [qlra|].
        apply (sorted_app_le (done ++ [ev2]) evs); [rewrite <- E'; apply pair_rows_sorted|apply in_or_app; right; now left|assumption].
      * intros c e' Hcc. apply Hnew. now right.
      * intros c Hcc. apply in_app_iff in Hcc as [Hcc|[<- | []]]; [now apply Hkeep|now left].
      * exists t', keep'. repeat (split; [assumption|]). assumption.
Qed.
End Groups.

(** * One pass *)
Definition gleader (t : table) (e : event) : Prop := forall f, In f (map snd t) -> same_nodes e f -> overlap e f -> (e_start e <= e_start f)%num.
Lemma same_nodes_joins e f i j : joins e i j -> (joins f i j <-> same_nodes e f).
Proof. unfold same_nodes, joins. intros H. split; intros K; intuition (subst; auto). Qed.
Lemma same_nodes_sym e f : same_nodes e f -> same_nodes f e.
Proof. unfold same_nodes, joins. intuition (subst; auto). Qed.
Lemma same_nodes_trans e f g : same_nodes e f -> same_nodes f g -> same_nodes e g.
Proof. unfold same_nodes, joins. intros [[H1 H2] | [H1 H2]] [[K1 K2] | [K1 K2]]; rewrite ?K1, ?K2, ?H1, ?H2; auto. Qed.
Lemma same_nodes_refl e : same_nodes e e.
Proof. left. now split. Qed.
Lemma overlap_sym e f : overlap e f -> overlap f e.
Proof. intros []. now split. Qed.
Lemma leader_iff t n1 n2 a e : In (a, e) t -> joins e n1 n2 -> (leader t n1 n2 (a, e) <-> gleader t e).
Proof.
  intros Ha HJ. split.
  - intros H f Hf Hs Ho. apply in_table in Hf as [b Hb]. apply (H (b, f)); [|exact Ho]. split; [assumption|]. cbn. now apply (same_nodes_joins e f n1 n2).
  - intros H [b f] [Hb HJf] Ho. cbn in *. apply H; [apply in_table; eauto| |exact Ho]. now apply (same_nodes_joins e f n1 n2).
Qed.
Lemma argmin (l : list event) : l <> [] -> exists e, In e l /\ forall f, In f l -> (e_start e <= e_start f)%num.
Proof.
  induction l as [|a l IH]; [congruence|]. intros _. destruct l as [|b l].
  - exists a. split; [now left|]. intros f [<- | []]. qlra.
  - destruct IH as (e & He & Hm); [discriminate|]. destruct (Qclt_le_dec (e_start a) (e_start e)).
    + exists a. split; [now left|]. intros f [<- | Hf]; [qlra|]. specialize (Hm f Hf). qlra.
    + exists e. split; [now right|]. intros f [<- | Hf]; [assumption|now apply Hm].
Qed.
Lemma exists_leader t e : lasting t -> simple_overlaps t -> In e (map snd t) ->
  exists f, In f (map snd t) /\ same_nodes e f /\ overlap e f /\ gleader t f /\ (e_start f <= e_start e)%num.
Proof.
  intros HL (_ & K2 & _) He. set (P := fun f => (joinsb f (e_src e) (e_tgt e) && (qltb (e_start e) (e_end f) && qltb (e_start f) (e_end e)))%bool).
  assert (HP : forall f, P f = true <-> same_nodes e f /\ overlap e f).
  { intros f. unfold P, same_nodes, overlap. rewrite !andb_true_iff, joinsb_spec. destruct (qltb_spec (e_start e) (e_end f)), (qltb_spec (e_start f) (e_end e)); intuition congruence. }
  assert (Hee : P e = true). { apply HP. split; [apply same_nodes_refl|]. specialize (HL e He). now split. }
  destruct (argmin (filter P (map snd t))) as (f & Hf & Hm).
  - intros E. assert (In e (filter P (map snd t))) by (apply filter_In; now split). rewrite E in H. contradiction.
  - apply filter_In in Hf as [Hf1 Hf2]. apply HP in Hf2 as [S1 O1]. exists f. repeat (split; [assumption|]). split.
    + intros g Hg Sg Og. apply Hm. apply filter_In. split; [assumption|]. apply HP. split; [now apply (same_nodes_trans e f g)|]. now apply (K2 e f g).
    + apply Hm. apply filter_In. now split.
Qed.
(** how a table of events may change while merging a pair *)
Definition grows (t t' : table) : Prop := map shape t' = map shape t /\
  forall a e e', In (a, e) t -> In (a, e') t' -> (e_end e <= e_end e')%num /\
    (exists f, In f (map snd t) /\ same_nodes e f /\ (f = e \/ overlap e f) /\ e_end e' = e_end f) /\ (~ gleader t e -> e' = e).
Lemma shape_sym_in t t' a e : map shape t' = map shape t -> In (a, e) t -> exists e', In (a, e') t' /\ e_src e' = e_src e /\ e_tgt e' = e_tgt e /\ e_start e' = e_start e.
Proof. intros E H. destruct (shape_in t' t a e (eq_sym E) H) as (e' & H' & A & B & C). exists e'. auto. Qed.
Definition twin (e e' : event) : Prop := e_src e' = e_src e /\ e_tgt e' = e_tgt e /\ e_start e' = e_start e.
Lemma twin_same e e' f f' : twin e e' -> twin f f' -> (same_nodes e' f' <-> same_nodes e f).
Proof. unfold twin, same_nodes, joins. intros (-> & -> & _) (-> & -> & _). reflexivity. Qed.
Section Grow.
Context (t t' : table) (HO : own_index t) (HL : lasting t) (HK : simple_overlaps t) (HG : grows t t').
Lemma own' : own_index t'.
Proof. unfold own_index. rewrite (shape_fst t t' (proj1 HG)). exact HO. Qed.
Lemma twins a e e' : In (a, e) t -> In (a, e') t' -> twin e e'.
Proof.
  intros H H'. destruct (shape_in t t' a e' (proj1 HG) H') as (f & Hf & A & B & C). rewrite (own_unique t a e f HO H Hf). repeat split; assumption.
Qed.
Lemma grow_lasting : lasting t'.
Proof.
  intros e' He'. apply in_table in He' as [a Ha]. destruct (shape_in t t' a e' (proj1 HG) Ha) as (e & He & A & B & C).
  destruct (proj2 HG a e e' He Ha) as (G1 & _). rewrite C. assert (H : (e_start e < e_end e)%num) by (apply HL; apply in_table; eauto). qlra.
Qed.
Lemma grow_overlap a b e e' f f' : In (a, e) t -> In (a, e') t' -> In (b, f) t -> In (b, f') t' -> same_nodes e f -> (overlap e' f' <-> overlap e f).
Proof.
  intros He He' Hf Hf' HS. destruct (twins a e e' He He') as (_ & _ & Se). destruct (twins b f f' Hf Hf') as (_ & _ & Sf).
  destruct (proj2 HG a e e' He He') as (G1 & (be & Be1 & Be2 & Be3 & Be4) & _). destruct (proj2 HG b f f' Hf Hf') as (G2 & (bf & Bf1 & Bf2 & Bf3 & Bf4) & _).
  assert (Ie : In e (map snd t)) by (apply in_table; eauto). assert (If : In f (map snd t)) by (apply in_table; eauto).
  destruct HK as (_ & K2 & _). pose proof (HL e Ie) as Le. pose proof (HL f If) as Lf. unfold overlap at 1. rewrite Se, Sf, Be4, Bf4. split.
  - intros [O1 O2]. destruct (Qclt_le_dec (e_start f) (e_start e)) as [Hlt|Hle].
    + (* f starts first *)
      destruct (Qclt_le_dec (e_start e) (e_end f)) as [|Hge]; [split; qlra|]. destruct Bf3 as [-> |Bf3]; [exfalso; qlra|].
      assert (O3 : overlap bf e). { split; [|assumption]. destruct Bf3. qlra. }
      apply overlap_sym, (K2 f bf e); auto. apply (same_nodes_trans bf f e); apply same_nodes_sym; assumption.
    + destruct (Qclt_le_dec (e_start f) (e_end e)) as [|Hge]; [split; qlra|]. destruct Be3 as [-> |Be3]; [exfalso; qlra|].
      assert (O3 : overlap be f). { split; [|assumption]. destruct Be3. qlra. }
      apply (K2 e be f); auto. apply (same_nodes_trans be e f); [now apply same_nodes_sym|assumption].
  - intros [O1 O2]. rewrite <- Be4, <- Bf4. split; qlra.
Qed.
Lemma grow_leader a e e' : In (a, e) t -> In (a, e') t' -> (gleader t' e' <-> gleader t e).
Proof.
  intros He He'. pose proof (twins a e e' He He') as Te. split; intros H.
  - intros f Hf HS Ho. apply in_table in Hf as [b Hb]. destruct (shape_sym_in t t' b f (proj1 HG) Hb) as (f' & Hf' & _). pose proof (twins b f f' Hb Hf') as Tf.
    destruct Te as (T1 & T2 & <-), Tf as (T4 & T5 & <-). apply H; [apply in_table; eauto| |now apply (grow_overlap a b e e' f f')].
    unfold same_nodes, joins in *. now rewrite T1, T2, T4, T5.
  - intros f' Hf' HS Ho. apply in_table in Hf' as [b Hb]. destruct (shape_in t t' b f' (proj1 HG) Hb) as (f & Hf & _). pose proof (twins b f f' Hf Hb) as Tf.
    assert (HS0 : same_nodes e f) by (apply (twin_same e e' f f'); assumption).
    assert (Ho0 : overlap e f) by (apply (grow_overlap a b e e' f f'); assumption).
    destruct Te as (_ & _ & ->), Tf as (_ & _ & ->). apply H; [apply in_table; eauto|assumption|assumption].
Qed.
Lemma grow_simple : simple_overlaps t'.
Proof.
  assert (back : forall a e', In (a, e') t' -> exists e, In (a, e) t /\ twin e e'). { intros a e' H. destruct (shape_in t t' a e' (proj1 HG) H) as (e & He & _). exists e. split; [assumption|]. now apply (twins a). }
  destruct HK as (K1 & K2 & K3). split; [|split].
  - intros a b e' f' Ha Hb Hab HS Ho. destruct (back a e' Ha) as (e & He & Te), (back b f' Hb) as (f & Hf & Tf).
    assert (S0 : same_nodes e f) by (apply (twin_same e e' f f'); assumption). apply (grow_overlap a b e e' f f') in Ho; try assumption.
    destruct Te as (_ & _ & ->), Tf as (_ & _ & ->). now apply (K1 a b).
  - intros e' f' g' Ie If Ig S1 S2 O1 O2. apply in_table in Ie as [a Ha], If as [b Hb], Ig as [c Hc].
    destruct (back a e' Ha) as (e & He & Te), (back b f' Hb) as (f & Hf & Tf), (back c g' Hc) as (g & Hg & Tg).
    assert (S01 : same_nodes e f) by (apply (twin_same e e' f f'); assumption). assert (S02 : same_nodes f g) by (apply (twin_same f f' g g'); assumption).
    apply (grow_overlap a b e e' f f') in O1; try assumption. apply (grow_overlap b c f f' g g') in O2; try assumption.
    apply (grow_overlap a c e e' g g'); try assumption; [now apply (same_nodes_trans e f g)|]. apply (K2 e f g); try assumption; apply in_table; eauto.
  - intros e' f' Ie If S1 O1 Hlt Hmax. apply in_table in Ie as [a Ha], If as [b Hb]. destruct (back a e' Ha) as (e & He & Te), (back b f' Hb) as (f & Hf & Tf).
    assert (S01 : same_nodes e f) by (apply (twin_same e e' f f'); assumption). apply (grow_overlap a b e e' f f') in O1; try assumption.
    assert (Ief : In e (map snd t)) by (apply in_table; eauto). assert (Iff : In f (map snd t)) by (apply in_table; eauto).
    assert (Hmax0 : forall g, In g (map snd t) -> same_nodes f g -> overlap f g -> (e_start g <= e_start f)%num).
    { intros g Ig Sg Og. apply in_table in Ig as [c Hc]. destruct (shape_sym_in t t' c g (proj1 HG) Hc) as (g' & Hg' & _). pose proof (twins c g g' Hc Hg') as Tg.
      assert (Sg' : same_nodes f' g') by (apply (twin_same f f' g g'); assumption). assert (Og' : overlap f' g') by (apply (grow_overlap b c f f' g g'); assumption).
      specialize (Hmax g' ltac:(apply in_table; eauto) Sg' Og'). destruct Tf as (_ & _ & Tf), Tg as (_ & _ & Tg). now rewrite Tf, Tg in Hmax. }
    destruct Te as (_ & _ & Te), Tf as (_ & _ & Tf). rewrite Te, Tf in Hlt.
    destruct (proj2 HG b f f' Hf Hb) as (G2 & _ & _). destruct (proj2 HG a e e' He Ha) as (_ & (x & X1 & X2 & X3 & X4) & _). rewrite X4.
    destruct X3 as [-> |X3]; [specialize (K3 e f Ief Iff S01 O1 Hlt Hmax0); qlra|].
    assert (Sxf : same_nodes x f) by (apply (same_nodes_trans x e f); [now apply same_nodes_sym|assumption]).
    assert (Oxf : overlap x f) by (apply (K2 x e f); auto using overlap_sym, same_nodes_sym).
    pose proof (Hmax0 x X1 (same_nodes_sym _ _ Sxf) (overlap_sym _ _ Oxf)) as Hle.
    apply in_table in X1 as [c Hc]. destruct (Nat.eq_dec c b) as [-> |Hcb]; [rewrite (own_unique t b x f HO Hc Hf); qlra|].
    pose proof (K1 c b x f Hc Hf Hcb Sxf Oxf) as Hne.
    assert (Hlt' : (e_start x < e_start f)%num). { destruct (Qclt_le_dec (e_start x) (e_start f)); [assumption|]. exfalso. apply Hne. now apply Qcle_antisym. }
    specialize (K3 x f ltac:(apply in_table; eauto) Iff Sxf Oxf Hlt' Hmax0). qlra.
Qed.
Lemma grow_contact i j u : contact t i j u -> contact t' i j u.
Proof.
  intros (e & He & HJ & H1 & H2). apply in_table in He as [a Ha]. destruct (shape_sym_in t t' a e (proj1 HG) Ha) as (e' & He' & A & B & C).
  destruct (proj2 HG a e e' Ha He') as (G1 & _). exists e'. split; [apply in_table; eauto|]. split; [unfold joins in *; now rewrite A, B|]. split; [now rewrite C|]. qlra.
Qed.
End Grow.

(** * All pairs *)
Definition pair_exists (t : table) (p : nat * nat) : Prop := exists e, In e (map snd t) /\ joins e (fst p) (snd p).
Lemma shape_pair t t' p : map shape t' = map shape t -> pair_exists t p -> pair_exists t' p.
Proof.
  intros E (e & He & HJ). apply in_table in He as [a Ha]. destruct (shape_sym_in t t' a e E Ha) as (e' & He' & A & B & _).
  exists e'. split; [apply in_table; eauto|]. unfold joins in *. now rewrite A, B.
Qed.
Lemma bounded_ordered t0 t : bounded t0 t -> ordered t.
Proof. intros [_ H] e He. apply in_table in He as [a Ha]. now apply (H a e). Qed.
Lemma shape_reset t t' : map shape t' = map shape t -> table_reset t -> table_reset t'.
Proof. unfold table_reset. intros E H. rewrite (shape_fst t t' E), (shape_length t t' E). exact H. Qed.
Definition chained (l : table) : Prop := Sorted (fun x y => (e_end (snd x) <= e_start (snd y))%num) l.
Lemma merge_pair_sound t keep p : table_reset t -> ordered t -> length keep = length t -> pair_exists t p ->
  exists t' keep', merge_pair (fst p) (snd p) (t, keep) = Some (t', keep') /\ bounded t t' /\ length keep' = length keep /\
    (forall k, nth k keep true = false -> nth k keep' true = false) /\
    ((forall k, nth k keep' true = true) -> t' = t /\ keep' = keep /\ chained (pair_rows (fst p) (snd p) t)).
Proof.
  intros HR HOrd HLen (e & He & HJ). unfold merge_pair. cbn [fst snd]. fold (pair_rows (fst p) (snd p) t).
  apply in_table in He as [a Ha]. assert (Hin : In (a, e) (pair_rows (fst p) (snd p) t)) by (apply pair_rows_in; now split).
  pose proof (pair_rows_sorted (fst p) (snd p) t) as HS. pose proof (pair_rows_in (fst p) (snd p) t) as HI.
  destruct (pair_rows (fst p) (snd p) t) as [|ev1 evs]; [contradiction|].
  apply (merge_loop_sound t (fst p) (snd p)); auto using reset_own, bounded_refl.
  intros r Hr. apply HI in Hr as [H1 H2]. repeat split; auto. rewrite HLen. destruct r as [b f]. now apply (reset_lt t b f).
Qed.
Lemma merge_pairs_sound ps : forall t keep, table_reset t -> ordered t -> length keep = length t -> (forall p, In p ps -> pair_exists t p) ->
  exists t' keep', merge_pairs ps (t, keep) = Some (t', keep') /\ bounded t t' /\ length keep' = length keep /\
    (forall k, nth k keep true = false -> nth k keep' true = false) /\
    ((forall k, nth k keep' true = true) -> t' = t /\ keep' = keep /\ forall p, In p ps -> chained (pair_rows (fst p) (snd p) t)).
Proof.
  induction ps as [|[n1 n2] ps IH]; intros t keep HR HOrd HLen HP.
  - exists t, keep. cbn. split; [reflexivity|]. split; [now apply bounded_refl|]. repeat split; auto; intros p [].
  - cbn [merge_pairs]. destruct (merge_pair_sound t keep (n1, n2) HR HOrd HLen (HP _ (or_introl eq_refl))) as (t1 & k1 & E1 & B1 & L1 & M1 & C1).
    cbn [fst snd] in *. rewrite E1. destruct (IH t1 k1) as (t2 & k2 & E2 & B2 & L2 & M2 & C2).
    + apply (shape_reset t); [apply B1|assumption].
    + now apply (bounded_ordered t).
    + rewrite L1, HLen. symmetry. apply shape_length, B1.
    + intros p Hp. apply (shape_pair t); [apply B1|]. apply HP. now right.
    + exists t2, k2. split; [exact E2|]. split; [now apply (bounded_trans t t1)|]. split; [congruence|]. split; [auto|].
      intros Hall. destruct (C2 Hall) as (-> & -> & HC2).
      destruct (C1 Hall) as (-> & -> & HC1). split; [reflexivity|split; [reflexivity|]]. intros p [<- | Hp]; [exact HC1|now apply HC2].
Qed.

(** * Masks *)
Lemma mask_in t : forall k keep r, map fst t = seq k (length t) -> length keep = length t ->
  (In r (mask_rows t keep) <-> In r t /\ nth (fst r - k) keep true = true).
Proof.
  unfold mask_rows. induction t as [|x t IH]; intros k keep r HR HLen; destruct keep as [|b keep]; try discriminate; [cbn; tauto|].
  cbn [map length seq] in HR. injection HR as Hx HR. cbn [length] in HLen. injection HLen as HLen.
  assert (Hlt : forall y, In y t -> S k <= fst y). { intros y Hy. apply (in_map fst) in Hy. rewrite HR in Hy. apply in_seq in Hy. lia. }
  cbn [combine filter snd]. assert (HI : In r (map fst (filter (fun rk => snd rk) (combine t keep))) <-> In r t /\ nth (fst r - k) (b :: keep) true = true).
  { rewrite (IH (S k) keep r HR HLen). split; intros [H1 H2]; (split; [assumption|]); specialize (Hlt r H1); replace (fst r - k) with (S (fst r - S k)) in * by lia; exact H2. }
  destruct b; cbn [map fst In]; rewrite HI.
  - split; [|tauto]. intros [-> | H]; [|tauto]. split; [now left|]. rewrite Hx, Nat.sub_diag. reflexivity.
  - split; [tauto|]. intros [[-> | H1] H2]; [|tauto]. exfalso. rewrite Hx, Nat.sub_diag in H2. discriminate.
Qed.
Lemma mask_length (t : table) : forall keep, length keep = length t -> length (mask_rows t keep) + length (filter negb keep) = length t.
Proof.
  unfold mask_rows. induction t as [|x t IH]; intros [|b keep] H; try discriminate; [reflexivity|]. cbn [length] in H. injection H as H. specialize (IH keep H).
  cbn [combine filter snd negb]. destruct b; cbn [map length negb filter] in *; lia.
Qed.
Lemma mask_all (t : table) : forall keep, length keep = length t -> (forall k, nth k keep true = true) -> mask_rows t keep = t.
Proof.
  unfold mask_rows. induction t as [|x t IH]; intros [|b keep] H HA; try discriminate; [reflexivity|]. cbn [length] in H. injection H as H.
  pose proof (HA 0) as H0. cbn in H0. subst b. cbn. f_equal. apply IH; [assumption|]. intros k. apply (HA (S k)).
Qed.
Lemma no_false (keep : list bool) : length (filter negb keep) = 0 -> forall k, nth k keep true = true.
Proof.
  induction keep as [|b keep IH]; intros H k; [now destruct k|]. cbn [filter] in H. destruct b; cbn [negb] in H; [|discriminate]. destruct k; cbn; auto.
Qed.
Lemma mask_sorted (R : nat * event -> nat * event -> Prop) (t : table) : forall keep, StronglySorted R t -> StronglySorted R (mask_rows t keep).
Proof.
  unfold mask_rows. intros keep H. revert keep. induction H as [|x t H IH F]; intros keep; [destruct keep; constructor|]. destruct keep as [|b keep]; [constructor|].
  cbn [combine filter snd]. destruct b; [|apply IH]. cbn [map fst]. constructor; [apply IH|]. rewrite Forall_forall in *. intros y Hy. apply F.
  apply in_map_iff in Hy as ([y' b] & <- & Hy). apply filter_In in Hy as [Hy _]. now apply in_combine_l in Hy.
Qed.
Lemma reset_index_id t : table_reset t -> reset_index t = t.
Proof.
  unfold table_reset, reset_index. intros H. rewrite <- H. clear H. induction t as [|[a e] t IH]; [reflexivity|]. cbn. now rewrite IH.
Qed.
Lemma reset_index_reset t : table_reset (reset_index t).
Proof.
  unfold table_reset. rewrite reset_index_fst. f_equal. unfold reset_index. rewrite combine_length, seq_length, map_length. lia.
Qed.
Lemma reset_index_length t : length (reset_index t) = length t.
Proof. unfold reset_index. rewrite combine_length, seq_length, map_length. lia. Qed.

(** * Chained rows do not overlap *)
Lemma chained_sep t l : ordered t -> incl l t -> chained l -> forall l1 x l2 y l3, l = l1 ++ x :: l2 ++ y :: l3 -> (e_end (snd x) <= e_start (snd y))%num.
Proof.
  intros HOrd HI HC l1 x l2 y l3 ->. 
  assert (G : forall l2 x, chained (x :: l2 ++ y :: l3) -> incl (x :: l2 ++ y :: l3) t -> (e_end (snd x) <= e_start (snd y))%num).
  { induction l0 as [|z l0 IH]; intros w HCw HIw; apply Sorted_inv in HCw as [HCw HH]; cbn [app] in HH; apply HdRel_inv in HH; [exact HH|].
    specialize (IH z HCw ltac:(intros v Hv; apply HIw; now right)). assert (Iz : In (snd z) (map snd t)) by (apply in_map, HIw; right; now left).
    specialize (HOrd _ Iz). qlra. }
  apply (G l2).
  - clear - HC. induction l1 as [|a l1 IH]; [exact HC|]. apply IH. now apply Sorted_inv in HC.
  - intros v Hv. apply HI. apply in_or_app. now right.
Qed.
Lemma in_two_split {A} (l : list A) x y : In x l -> In y l -> x <> y -> exists l1 l2 l3, l = l1 ++ x :: l2 ++ y :: l3 \/ l = l1 ++ y :: l2 ++ x :: l3.
Proof.
  intros Hx Hy Hne. apply in_split in Hx as (l1 & l2 & ->). apply in_app_iff in Hy as [Hy|[Hy|Hy]]; [|congruence|].
  - apply in_split in Hy as (l3 & l4 & ->). exists l3, l4, l2. right. now rewrite <- app_assoc.
  - apply in_split in Hy as (l3 & l4 & ->). exists l1, l3, l4. now left.
Qed.
Lemma chained_no_overlap t n1 n2 x y : ordered t -> chained (pair_rows n1 n2 t) -> In x t -> In y t -> x <> y -> joins (snd x) n1 n2 -> joins (snd y) n1 n2 ->
  (e_end (snd x) <= e_start (snd y))%num \/ (e_end (snd y) <= e_start (snd x))%num.
Proof.
  intros HOrd HC Hx Hy Hne HJx HJy.
  assert (Px : In x (pair_rows n1 n2 t)) by (apply pair_rows_in; now split). assert (Py : In y (pair_rows n1 n2 t)) by (apply pair_rows_in; now split).
  assert (HI : incl (pair_rows n1 n2 t) t) by (intros r Hr; apply pair_rows_in in Hr; tauto).
  destruct (in_two_split _ x y Px Py Hne) as (l1 & l2 & l3 & [E|E]); [left|right]; now apply (chained_sep t _ HOrd HI HC l1 _ l2 _ l3).
Qed.

(** * Adjacency and pairs *)
Lemma coo_nonneg t s u i j : ordered t -> (s <= u)%num -> (0 <= coo_entry t s u i j)%num.
Proof.
  intros HOrd Hsu. unfold coo_entry. apply sumL_nonneg. intros r Hr. apply filter_In in Hr as [Hr Hw]. destruct (_ && _)%bool; [|qlra].
  assert (HOr := HOrd (snd r) (in_map snd _ _ Hr)). unfold in_window in Hw. unfold clipped.
  destruct (qltb_spec (e_start (snd r)) u), (qltb_spec s (e_end (snd r))); try discriminate. destruct (qleb_spec (e_end (snd r)) u), (qleb_spec s (e_start (snd r))); qlra.
Qed.
Lemma coo_pos t s u r : ordered t -> (s <= u)%num -> In r t -> (e_start (snd r) < e_end (snd r))%num -> (s <= e_start (snd r))%num -> (e_end (snd r) <= u)%num ->
  (0 < coo_entry t s u (e_src (snd r)) (e_tgt (snd r)))%num.
Proof.
  intros HOrd Hsu Hr Hlt H1 H2. unfold coo_entry.
  match goal with |- (0 < sumL ?f ?l)%num => pose proof (sumL_nonneg_term f l r) as K end. cbn beta in K. rewrite !Nat.eqb_refl in K. cbn [andb] in K.
  assert (E : clipped (snd r) s u = (e_end (snd r) - e_start (snd r))%num). { unfold clipped. destruct (qleb_spec (e_end (snd r)) u), (qleb_spec s (e_start (snd r))); try contradiction; reflexivity. }
  rewrite E in K. refine (Qclt_le_trans _ _ _ _ (K _ _)); [qlra| |].
  - intros b Hb. apply filter_In in Hb as [Hb Hw]. destruct (_ && _)%bool; [|qlra]. assert (HOr := HOrd (snd b) (in_map snd _ _ Hb)). unfold in_window in Hw. unfold clipped.
    destruct (qltb_spec (e_start (snd b)) u), (qltb_spec s (e_end (snd b))); try discriminate. destruct (qleb_spec (e_end (snd b)) u), (qleb_spec s (e_start (snd b))); qlra.
  - apply filter_In. split; [assumption|]. unfold in_window. destruct (qltb_spec (e_start (snd r)) u), (qltb_spec s (e_end (snd r))); try reflexivity; exfalso; qlra.
Qed.
Lemma coo_some t s u i j : coo_entry t s u i j <> 0%num -> exists r, In r t /\ e_src (snd r) = i /\ e_tgt (snd r) = j.
Proof.
  intros H. destruct (existsb (fun r => (e_src (snd r) =? i) && (e_tgt (snd r) =? j))%bool t) eqn:E.
  - apply existsb_exists in E as (r & Hr & E). apply andb_true_iff in E as [E1 E2]. apply Nat.eqb_eq in E1, E2. exists r. auto.
  - exfalso. apply H. unfold coo_entry. apply sumL_zero. intros r Hr. apply filter_In in Hr as [Hr _].
    destruct (_ && _)%bool eqn:E2; [|reflexivity]. apply not_true_iff_false in E. exfalso. apply E. apply existsb_exists. now exists r.
Qed.
Lemma start_time_le N r : In r (rows N) -> (start_time N <= e_start (snd r))%num.
Proof.
  intros Hr. unfold start_time. destruct (num_min_spec (map (fun r => e_start (snd r)) (rows N))) as [_ H]; [intros E; apply map_eq_nil in E; rewrite E in Hr; contradiction|].
  apply H. now apply (in_map (fun r => e_start (snd r))) in Hr.
Qed.
Lemma end_time_ge N r : In r (rows N) -> (e_end (snd r) <= end_time N)%num.
Proof.
  intros Hr. unfold end_time. destruct (num_maxl_spec (map (fun r => e_end (snd r)) (rows N))) as [_ H]; [intros E; apply map_eq_nil in E; rewrite E in Hr; contradiction|].
  apply H. now apply (in_map (fun r => e_end (snd r))) in Hr.
Qed.
Definition pass_pairs (N : net) (A : mat) : list (nat * nat) :=
  flat_map (fun n1 => map (fun n2 => (n1, n2)) (filter (fun n2 => qltb 0%num (A n1 n2)) (seq 0 (num_nodes_of N)))) (nodes N).
Lemma pass_pairs_in N A p : In p (pass_pairs N A) <-> In (fst p) (nodes N) /\ snd p < num_nodes_of N /\ (0 < A (fst p) (snd p))%num.
Proof.
  unfold pass_pairs. rewrite in_flat_map. destruct p as [n1 n2]. cbn [fst snd]. split.
  - intros (x & Hx & H). apply in_map_iff in H as (y & [= -> ->] & H). apply filter_In in H as [H1 H2]. apply in_seq in H1. destruct (qltb_spec 0%num (A n1 n2)); [|discriminate]. repeat split; auto; lia.
  - intros (H1 & H2 & H3). exists n1. split; [assumption|]. apply in_map_iff. exists n2. split; [reflexivity|]. apply filter_In. split; [apply in_seq; lia|]. now destruct (qltb_spec 0%num (A n1 n2)).
Qed.
Definition well_made (N : net) : Prop := table_reset (rows N) /\ ordered (rows N) /\ ids_ok N = true /\
  forall e, In e (map snd (rows N)) -> In (e_src e) (nodes N) /\ In (e_tgt e) (nodes N).
Lemma static_pairs N A p : well_made N -> static_adjacency N None None = Some A -> In p (pass_pairs N A) -> pair_exists (rows N) p.
Proof.
  intros (HR & HOrd & Hids & Hn) E Hp. apply pass_pairs_in in Hp as (_ & _ & Hp). unfold static_adjacency in E. rewrite Hids in E. injection E as <-.
  destruct (Qc_eq_dec (coo_entry (rows N) (start_time N) (end_time N) (fst p) (snd p)) 0%num) as [E|E].
  - destruct (coo_some (rows N) (start_time N) (end_time N) (snd p) (fst p)) as (r & Hr & E1 & E2).
    { intros K. rewrite E, K in Hp. revert Hp. apply Qcle_not_lt. qlra. }
    exists (snd r). split; [now apply in_map|]. right. now split.
  - destruct (coo_some _ _ _ _ _ E) as (r & Hr & E1 & E2). exists (snd r). split; [now apply in_map|]. left. now split.
Qed.
Lemma static_pairs_pos N A r i j : well_made N -> static_adjacency N None None = Some A -> In r (rows N) -> (e_start (snd r) < e_end (snd r))%num -> joins (snd r) i j ->
  In (i, j) (pass_pairs N A).
Proof.
  intros (HR & HOrd & Hids & Hn) E Hr Hlt HJ. unfold static_adjacency in E. pose proof Hids as Hids'. rewrite Hids in E. injection E as <-.
  assert (Hin : In (snd r) (map snd (rows N))) by now apply in_map. destruct (Hn _ Hin) as [N1 N2]. destruct (proj1 (ids_ok_spec N) Hids' _ Hin) as [I1 I2].
  pose proof (start_time_le N r Hr) as S1. pose proof (end_time_ge N r Hr) as S2. assert (Hsu : (start_time N <= end_time N)%num) by qlra.
  pose proof (coo_pos (rows N) _ _ r HOrd Hsu Hr Hlt S1 S2) as P.
  apply pass_pairs_in. cbn [fst snd]. destruct HJ as [[<- <-] | [<- <-]]; (split; [assumption|split; [assumption|]]).
  - pose proof (coo_nonneg (rows N) _ _ (e_tgt (snd r)) (e_src (snd r)) HOrd Hsu). qlra.
  - pose proof (coo_nonneg (rows N) _ _ (e_tgt (snd r)) (e_src (snd r)) HOrd Hsu). qlra.
Qed.

(** * A pass and the whole merging *)
Definition by_start (t : table) : Prop := StronglySorted (fun x y => (e_start (snd x) <= e_start (snd y))%num) t.
Lemma shape_by_start t t' : map shape t' = map shape t -> by_start t -> by_start t'.
Proof.
  unfold by_start. revert t'. induction t as [|x t IH]; intros [|x' t'] E H; try discriminate; [constructor|]. cbn [map] in E. injection E as E1 E2 E3 E4 E.
  apply StronglySorted_inv in H as [H F]. constructor; [now apply IH|]. rewrite Forall_forall in *. intros y' Hy'. rewrite E4. destruct y' as [b f'].
  destruct (shape_in t t' b f' E Hy') as (f & Hf & _ & _ & E5). cbn [snd]. rewrite E5. now apply (F (b, f)).
Qed.
Lemma by_start_index t : by_start t -> index_by_start (reset_index t).
Proof.
  intros H a b e f Ha Hb Hlt. unfold reset_index in *. rewrite <- (map_length snd t) in Ha, Hb.
  assert (HS : StronglySorted (fun e f => (e_start e <= e_start f)%num) (map snd t)).
  { clear - H. induction H as [|x t H IH F]; [constructor|]. cbn. constructor; [assumption|]. rewrite Forall_forall in *. intros y Hy.
    apply in_map_iff in Hy as (r & <- & Hr). now apply F. }
  apply (combine_seq_sorted_lt _ (map snd t) 0 HS a b e f Ha Hb); [intros K; qlra|]. intros ->. qlra.
Qed.
Lemma by_start_reset t : by_start t -> by_start (reset_index t).
Proof.
  unfold by_start, reset_index. generalize 0. intros k H. revert k. induction H as [|x t H IH F]; intros k; [constructor|]. cbn [length seq map combine]. constructor; [apply IH|].
  rewrite Forall_forall in *. intros [b f] Hy. apply in_combine_r in Hy. apply in_map_iff in Hy as (r & <- & Hr). cbn. now apply F.
Qed.
Lemma mask_snd t keep e : table_reset t -> length keep = length t ->
  (In e (map snd (reset_index (mask_rows t keep))) <-> exists a, In (a, e) t /\ nth a keep true = true).
Proof.
  intros HR HL. rewrite reset_index_snd, in_table. split; intros [a Ha]; exists a.
  - apply (mask_in t 0 keep (a, e) HR HL) in Ha. cbn [fst] in Ha. now rewrite Nat.sub_0_r in Ha.
  - apply (mask_in t 0 keep (a, e) HR HL). cbn [fst]. now rewrite Nat.sub_0_r.
Qed.
Lemma nth_repeat_true k n : nth k (repeat true n) true = true.
Proof. revert k. induction n as [|n IH]; intros [|k]; cbn; auto. Qed.
Theorem merge_pass_sound N : well_made N -> exists N' k, merge_pass N = Some (N', k) /\ well_made N' /\ nodes N' = nodes N /\
  length (rows N') + k = length (rows N) /\ (lasting (rows N) -> lasting (rows N')) /\ (by_start (rows N) -> by_start (rows N')) /\
  (forall i j u, contact (rows N') i j u -> contact (rows N) i j u) /\ (k = 0 -> N' = N /\ no_overlap (rows N)) /\
  (forall e', In e' (map snd (rows N')) -> exists e, In e (map snd (rows N)) /\ twin e e').
Proof.
  intros HW. pose proof HW as (HR & HOrd & Hids & Hn). unfold merge_pass. destruct (static_adjacency N None None) as [A|] eqn:EA.
  2: { exfalso. unfold static_adjacency in EA. rewrite Hids in EA. discriminate. }
  fold (pass_pairs N A). destruct (merge_pairs_sound (pass_pairs N A) (rows N) (repeat true (length (rows N))) HR HOrd) as (t & keep & -> & HB & HL & _ & HC).
  { apply repeat_length. }
  { intros p Hp. now apply (static_pairs N A). }
  rewrite repeat_length in HL. pose proof HB as [ES HBB]. pose proof (shape_reset _ _ ES HR) as HRt. pose proof (shape_length _ _ ES) as HLt.
  assert (HM : forall e, In e (map snd (reset_index (mask_rows t keep))) -> exists a, In (a, e) t) by (intros e He; apply (mask_snd t keep e HRt) in He as (a & Ha & _); [eauto|lia]).
  eexists _, _. split; [reflexivity|]. cbn [rows nodes]. split; [|split; [reflexivity|]].
  - split; [apply reset_index_reset|]. cbn [rows nodes]. split; [|split].
    + intros e He. destruct (HM e He) as [a Ha]. now apply (HBB a e).
    + apply ids_ok_spec. unfold num_nodes_of. cbn [rows nodes]. intros e He. destruct (HM e He) as [a Ha]. destruct (shape_in _ _ a e ES Ha) as (e0 & He0 & -> & -> & _).
      apply ids_ok_spec; [assumption|]. apply in_table; eauto.
    + intros e He. destruct (HM e He) as [a Ha]. destruct (shape_in _ _ a e ES Ha) as (e0 & He0 & -> & -> & _). apply Hn. apply in_table; eauto.
  - split; [rewrite reset_index_length; rewrite mask_length; lia|]. split; [|split; [|split; [|split]]].
    + intros HLast e He. destruct (HM e He) as [a Ha]. now apply (HBB a e).
    + intros HS. apply by_start_reset, mask_sorted. now apply (shape_by_start (rows N)).
    + intros i j u (e & He & HJ & HA). destruct (HM e He) as [a Ha]. apply (bounded_contact _ t); [assumption|]. exists e. split; [apply in_table; eauto|now split].
    + intros H0. pose proof (no_false keep H0) as Hall. destruct (HC Hall) as (-> & -> & HCh). split.
      * rewrite mask_all; [|assumption|assumption]. rewrite reset_index_id by assumption. now destruct N.
      * intros a b e f i j Ha Hb Hab HJe HJf.
        destruct (Qclt_le_dec (e_start f) (e_end e)) as [O1|]; [|now left]. destruct (Qclt_le_dec (e_start e) (e_end f)) as [O2|]; [|now right].
        assert (Hpos : (e_start e < e_end e)%num \/ (e_start f < e_end f)%num).
        { destruct (Qclt_le_dec (e_start e) (e_end e)) as [|K1]; [now left|]. destruct (Qclt_le_dec (e_start f) (e_end f)) as [|K2]; [now right|]. exfalso. qlra. }
        assert (Hp : In (i, j) (pass_pairs N A)).
        { destruct Hpos; [apply (static_pairs_pos N A (a, e))|apply (static_pairs_pos N A (b, f))]; assumption. }
        specialize (HCh _ Hp). cbn [fst snd] in HCh. apply (chained_no_overlap (rows N) i j (a, e) (b, f)); auto. congruence.
    + intros e' He'. destruct (HM e' He') as [a Ha]. destruct (shape_in _ _ a e' ES Ha) as (e & He & T). exists e. split; [apply in_table; eauto|exact T].
Qed.
Theorem merge_all_sound : forall fuel N, well_made N -> length (rows N) < fuel -> exists N', merge_all fuel N = Some N' /\ well_made N' /\ nodes N' = nodes N /\
  (lasting (rows N) -> lasting (rows N')) /\ (by_start (rows N) -> by_start (rows N')) /\
  (forall i j u, contact (rows N') i j u -> contact (rows N) i j u) /\ no_overlap (rows N') /\
  (forall e', In e' (map snd (rows N')) -> exists e, In e (map snd (rows N)) /\ twin e e').
Proof.
  induction fuel as [|fuel IH]; intros N HW Hf; [lia|]. cbn [merge_all].
  destruct (merge_pass_sound N HW) as (N1 & k & -> & W1 & E1 & L1 & La & Bs & C1 & K0 & Tw). destruct (Nat.eqb_spec k 0) as [-> |Hk].
  - destruct (K0 eq_refl) as [-> HNo]. exists N. repeat (split; [now auto|]). intros e' He'. exists e'. split; [assumption|]. repeat split.
  - destruct (IH N1 W1 ltac:(lia)) as (N2 & E2 & W2 & E3 & La2 & Bs2 & C2 & NO & Tw2). exists N2. split; [exact E2|]. split; [assumption|]. split; [congruence|].
    repeat (split; [now auto|]). intros e' He'. destruct (Tw2 e' He') as (e1 & He1 & (T1 & T2 & T3)). destruct (Tw e1 He1) as (e & He & (U1 & U2 & U3)).
    exists e. split; [assumption|]. repeat split; congruence.
Qed.

(** * Completeness for simple overlaps *)
Definition covered (t : table) (keep : list bool) : Prop := forall a e, In (a, e) t -> nth a keep true = false ->
  ~ gleader t e /\ exists f, In f (map snd t) /\ gleader t f /\ same_nodes e f /\ (e_start f <= e_start e)%num /\ (e_end e <= e_end f)%num.
Definition thinned (t : table) (keep : list bool) (p : nat * nat) : Prop := forall a e, In (a, e) t -> joins e (fst p) (snd p) -> gleader t e \/ nth a keep true = false.
Lemma merge_pair_simple t keep p : table_reset t -> lasting t -> simple_overlaps t -> length keep = length t -> pair_exists t p -> covered t keep ->
  exists t' keep', merge_pair (fst p) (snd p) (t, keep) = Some (t', keep') /\ grows t t' /\ length keep' = length keep /\
    (forall k, nth k keep true = false -> nth k keep' true = false) /\ covered t' keep' /\ thinned t' keep' p /\
    (forall q, thinned t keep q -> thinned t' keep' q).
Proof.
  intros HR HL HK HLen HPe HCov. pose proof (reset_own t HR) as HO. destruct p as [n1 n2]. cbn [fst snd] in *.
  assert (HOrd : ordered t) by (intros e He; specialize (HL e He); qlra).
  destruct (merge_pair_sound t keep (n1, n2) HR HOrd HLen HPe) as (t1 & keep1 & E1 & HB & L1 & M1 & _). cbn [fst snd] in *.
  assert (G : exists t' keep', merge_pair n1 n2 (t, keep) = Some (t', keep') /\ grown t n1 n2 t' /\ (forall c, pr t n1 n2 c -> leader t n1 n2 c -> full t n1 n2 t' c) /\
    (forall c, pr t n1 n2 c -> leader t n1 n2 c \/ nth (fst c) keep' true = false) /\
    (forall k, nth k keep' true = false -> nth k keep true = false \/ exists c, pr t n1 n2 c /\ fst c = k /\ ~ leader t n1 n2 c)).
  { unfold merge_pair. cbn [fst snd]. fold (pair_rows n1 n2 t). destruct HPe as (e & He & HJ). apply in_table in He as [a Ha].
    assert (Hin : In (a, e) (pair_rows n1 n2 t)) by (apply pair_rows_in; now split).
    pose proof (pair_rows_sorted n1 n2 t) as HS. destruct (pair_rows n1 n2 t) as [|ev1 evs] eqn:EP; [contradiction|].
    assert (HND : NoDup (ev1 :: evs)).
    { rewrite <- EP. apply (Permutation_NoDup (Permutation_sym (sort_rows_perm _))). apply filter_NoDup. apply NoDup_map_inv with (f := fst). exact HO. }
    assert (P1 : pr t n1 n2 ev1) by (apply pair_rows_in; rewrite EP; now left).
    destruct HK as (K1 & K2 & K3).
    assert (PS : forall x y, pr t n1 n2 x -> pr t n1 n2 y -> same_nodes (snd x) (snd y)) by (intros x y [_ Jx] [_ Jy]; now apply (same_nodes_joins (snd x) (snd y) n1 n2)).
    apply (loop_groups t n1 n2 HO HL) with (done := [ev1]) (cur := ev1).
    - intros [xa x] [ya y] Px Py Hne Ho. apply (K1 xa ya); [apply Px|apply Py| |now apply (PS (xa, x) (ya, y))|exact Ho].
      intros ->. apply Hne. f_equal. apply (own_unique t ya); [assumption|apply Px|apply Py].
    - intros x y z Px Py Pz O1 O2. apply (K2 (snd x) (snd y) (snd z)); auto; apply in_map; [apply Px|apply Py|apply Pz].
    - intros x y Px Py Ho Hlt Hmax. apply (K3 (snd x) (snd y)); auto; try (apply in_map; [apply Px || apply Py]).
      intros g Hg Sg Og. apply in_table in Hg as [b Hb]. apply (Hmax (b, g)); [|exact Og]. split; [assumption|]. cbn. apply (same_nodes_joins (snd y) g n1 n2); [apply Py|assumption].
    - exact EP.
    - exact HND.
    - intros [b f] [Hb _]. rewrite HLen. now apply (reset_lt t b f).
    - now left.
    - now left.
    - now left.
    - intros c [<- | []]. qlra.
    - intros c [<- | []]. now left.
    - intros z Pz Oz. assert (Hz : In z (ev1 :: evs)) by (rewrite <- EP; now apply pair_rows_in). destruct Hz as [<- | Hz]; [qlra|].
      apply StronglySorted_inv in HS as [_ F]. rewrite Forall_forall in F. apply ev_le_start. now apply F.
    - split; [reflexivity|]. intros b f Hb. exists f. split; [assumption|now left].
    - intros e' He'. rewrite (own_unique t (fst ev1) e' (snd ev1)); [reflexivity|assumption|assumption|]. destruct ev1. apply P1.
    - intros c [<- | []] _ Hne. congruence.
    - intros c e' Hc He'. assert (Pc : In c t) by (assert (K : In c (pair_rows n1 n2 t)) by (rewrite EP; now right); apply pair_rows_in in K; tauto).
      apply (own_unique t (fst c)); [assumption|assumption|]. now destruct c.
    - intros c [<- | []]. left. intros z Pz Oz. assert (Hz : In z (ev1 :: evs)) by (rewrite <- EP; now apply pair_rows_in). destruct Hz as [<- | Hz]; [qlra|].
      apply StronglySorted_inv in HS as [_ F]. rewrite Forall_forall in F. apply ev_le_start. now apply F. }
  destruct G as (t' & keep' & E & HGr & HFull & HLead & HKeep). rewrite E1 in E. injection E as -> ->.
  assert (HG : grows t t').
  { destruct HGr as [ES HGr]. split; [assumption|]. intros a e e' He He'. destruct (HGr a e' He') as (e0 & He0 & HC). rewrite <- (own_unique t a e e0 HO He He0) in HC.
    destruct HC as [-> |(Pe & Le & b & Pb & Ob & ->)].
    - split; [qlra|]. split; [|auto]. exists e. split; [apply in_table; eauto|]. split; [apply same_nodes_refl|auto].
    - split; [|split].
      + apply (HFull (a, e) Pe Le _ He' (a, e) Pe). now left.
      + exists (snd b). split; [apply in_map, Pb|]. split; [apply (same_nodes_joins e (snd b) n1 n2); [apply Pe|apply Pb]|]. split; [|reflexivity]. destruct Ob as [-> |Ob]; [now left|now right].
      + intros HN. exfalso. apply HN. apply (leader_iff t n1 n2 a e); [apply Pe|apply Pe|assumption]. }
  pose proof (proj1 HG) as ES.
  assert (back : forall a e', In (a, e') t' -> exists e, In (a, e) t /\ twin e e').
  { intros a e' H. destruct (shape_in t t' a e' ES H) as (e & He & _). exists e. split; [assumption|]. now apply (twins t t' HO HG a). }
  exists t', keep'. split; [exact E1|]. split; [exact HG|]. split; [exact L1|]. split; [exact M1|]. split; [|split].
  - intros a e' He' Hk. destruct (back a e' He') as (e & He & Te). 
    assert (HD : (~ gleader t e /\ nth a keep true = false) \/ (~ gleader t e /\ joins e n1 n2)).
    { destruct (HKeep a Hk) as [Ho|([b c] & [Pc Jc] & Ec & Lc)].
      - left. split; [|assumption]. now apply (HCov a e He Ho).
      - cbn in Ec, Jc. subst b. rewrite <- (own_unique t a e c HO He Pc) in *. right. split; [|assumption]. intros K. apply Lc. now apply (leader_iff t n1 n2 a e). }
    assert (HNL : ~ gleader t e) by tauto.
    split; [intros K; apply HNL; now apply (grow_leader t t' HO HL HK HG a e e')|].
    assert (Ee : e' = e) by now apply (proj2 HG a e e' He He'). subst e'.
    destruct HD as [[_ Hold] | [_ HJ]].
    + destruct (HCov a e He Hold) as (_ & f & Hf & Lf & Sf & H1 & H2). apply in_table in Hf as [b Hb]. destruct (shape_sym_in t t' b f ES Hb) as (f' & Hf' & T).
      exists f'. split; [apply in_table; eauto|]. split; [now apply (grow_leader t t' HO HL HK HG b f f')|].
      split; [apply (twin_same e e f f'); [repeat split|exact T|assumption]|]. destruct (proj2 HG b f f' Hb Hf') as (Hend & _). destruct T as (_ & _ & ->). split; [assumption|qlra].
    + destruct (exists_leader t e HL HK ltac:(apply in_table; eauto)) as (f & Hf & Sf & Of & Lf & Hs). apply in_table in Hf as [b Hb].
      destruct (shape_sym_in t t' b f ES Hb) as (f' & Hf' & T). assert (JF : joins f n1 n2) by now apply (same_nodes_joins e f n1 n2).
      exists f'. split; [apply in_table; eauto|]. split; [now apply (grow_leader t t' HO HL HK HG b f f')|].
      split; [apply (twin_same e e f f'); [repeat split|exact T|assumption]|]. destruct T as (_ & _ & ->). split; [assumption|].
      apply (HFull (b, f)) with (x := (a, e)); [split; assumption|now apply (leader_iff t n1 n2 b f)|exact Hf'|split; assumption|]. right. now apply overlap_sym.
  - intros a e' He' HJ. cbn [fst snd] in HJ. destruct (back a e' He') as (e & He & Te). assert (HJe : joins e n1 n2) by (destruct Te as (T1 & T2 & _); unfold joins in *; now rewrite T1, T2 in HJ).
    destruct (HLead (a, e) ltac:(now split)) as [K|K]; [left|now right]. apply (grow_leader t t' HO HL HK HG a e e'); auto. now apply (leader_iff t n1 n2 a e).
  - intros q Hq a e' He' HJ. destruct (back a e' He') as (e & He & Te). assert (HJe : joins e (fst q) (snd q)) by (destruct Te as (T1 & T2 & _); unfold joins in *; now rewrite T1, T2 in HJ).
    destruct (Hq a e He HJe) as [K|K]; [left|right; now apply M1]. now apply (grow_leader t t' HO HL HK HG a e e').
Qed.
Lemma merge_pairs_simple ps : forall t keep, table_reset t -> lasting t -> simple_overlaps t -> length keep = length t -> (forall p, In p ps -> pair_exists t p) -> covered t keep ->
  exists t' keep', merge_pairs ps (t, keep) = Some (t', keep') /\ map shape t' = map shape t /\ length keep' = length keep /\ simple_overlaps t' /\
    (forall i j u, contact t i j u -> contact t' i j u) /\ covered t' keep' /\ (forall p, In p ps -> thinned t' keep' p) /\
    (forall q, thinned t keep q -> thinned t' keep' q).
Proof.
  induction ps as [|[n1 n2] ps IH]; intros t keep HR HL HK HLen HP HC.
  - exists t, keep. cbn. do 6 (split; [now auto|]). split; [intros p []|auto].
  - cbn [merge_pairs]. destruct (merge_pair_simple t keep (n1, n2) HR HL HK HLen (HP _ (or_introl eq_refl)) HC) as (t1 & k1 & E1 & G1 & L1 & M1 & C1 & T1 & Q1).
    cbn [fst snd] in E1. rewrite E1. pose proof (reset_own t HR) as HO. pose proof (proj1 G1) as S1.
    destruct (IH t1 k1) as (t2 & k2 & E2 & S2 & L2 & K2 & Co2 & C2 & T2 & Q2).
    + now apply (shape_reset t).
    + now apply (grow_lasting t t1).
    + now apply (grow_simple t t1).
    + rewrite L1, HLen. symmetry. now apply shape_length.
    + intros p Hp. apply (shape_pair t); [assumption|]. apply HP. now right.
    + exact C1.
    + exists t2, k2. split; [exact E2|]. split; [congruence|]. split; [congruence|]. split; [assumption|]. split; [intros; apply Co2; now apply (grow_contact t t1)|].
      split; [assumption|]. split; [|auto]. intros p [<- | Hp]; [now apply Q2|now apply T2].
Qed.
Lemma reset_in (m : table) a e : In (a, e) (reset_index m) -> exists a', nth_error m a = Some (a', e).
Proof.
  unfold reset_index. intros H. assert (G : forall k, In (a, e) (combine (seq k (length m)) (map snd m)) -> k <= a /\ exists a', nth_error m (a - k) = Some (a', e)).
  { clear H. induction m as [|[b f] m IH]; intros k H; [contradiction|]. cbn [length seq map combine snd] in H. destruct H as [[= -> ->] | H].
    - split; [lia|]. rewrite Nat.sub_diag. now exists b.
    - destruct (IH (S k) H) as (Hle & a' & Ea). split; [lia|]. exists a'. replace (a - k) with (S (a - S k)) by lia. exact Ea. }
  destruct (G 0 H) as (_ & a' & Ea). rewrite Nat.sub_0_r in Ea. eauto.
Qed.
Theorem merge_pass_simple N N' k : well_made N -> lasting (rows N) -> simple_overlaps (rows N) -> merge_pass N = Some (N', k) ->
  simple_overlaps (rows N') /\ forall i j u, contact (rows N) i j u -> contact (rows N') i j u.
Proof.
  intros HW HL HK HM. pose proof HW as (HR & HOrd & Hids & Hn). unfold merge_pass in HM. destruct (static_adjacency N None None) as [A|] eqn:EA; [|discriminate].
  fold (pass_pairs N A) in HM.
  destruct (merge_pairs_simple (pass_pairs N A) (rows N) (repeat true (length (rows N))) HR HL HK (repeat_length _ _)) as (t & keep & E & ES & HLen & HKt & HCt & HCov & HT & _).
  { intros p Hp. now apply (static_pairs N A). }
  { intros a e _ H. rewrite nth_repeat_true in H. discriminate. }
  rewrite E in HM. injection HM as <- _. cbn [rows]. rewrite repeat_length in HLen. pose proof (shape_reset _ _ ES HR) as HRt. pose proof (shape_length _ _ ES) as HLt.
  pose proof (reset_own t HRt) as HOt. assert (HLm : length keep = length t) by lia.
  assert (lead : forall a e, In (a, e) t -> nth a keep true = true -> gleader t e).
  { intros a e Ha Hk. destruct (shape_in _ _ a e ES Ha) as (e0 & He0 & T1 & T2 & T3).
    assert (Hp : In (e_src e, e_tgt e) (pass_pairs N A)).
    { apply (static_pairs_pos N A (a, e0)); auto; [apply HL, in_table; eauto|]. rewrite T1, T2. apply joins_src_tgt. }
    destruct (HT _ Hp a e Ha) as [|K]; [apply joins_src_tgt|assumption|congruence]. }
  assert (distinct : forall a b e f, In (a, e) t -> In (b, f) t -> nth a keep true = true -> nth b keep true = true -> a <> b -> same_nodes e f -> ~ overlap e f).
  { intros a b e f Ha Hb Ka Kb Hab HS Ho. pose proof (lead a e Ha Ka f ltac:(apply in_table; eauto) HS Ho) as H1.
    pose proof (lead b f Hb Kb e ltac:(apply in_table; eauto) (same_nodes_sym _ _ HS) (overlap_sym _ _ Ho)) as H2.
    destruct HKt as (K1 & _). apply (K1 a b e f Ha Hb Hab HS Ho). now apply Qcle_antisym. }
  assert (same : forall e f, In e (map snd (reset_index (mask_rows t keep))) -> In f (map snd (reset_index (mask_rows t keep))) -> same_nodes e f -> overlap e f -> e = f).
  { intros e f He Hf HS Ho. apply (mask_snd t keep e HRt HLm) in He as (a & Ha & Ka). apply (mask_snd t keep f HRt HLm) in Hf as (b & Hb & Kb).
    destruct (Nat.eq_dec a b) as [-> |Hab]; [now apply (own_unique t b)|]. exfalso. now apply (distinct a b e f). }
  split.
  - split; [|split].
    + intros a b e f Ha Hb Hab HS Ho _. apply reset_in in Ha as [a' Ha], Hb as [b' Hb].
      assert (HNm : NoDup (map fst (mask_rows t keep))).
      { clear - HOt. unfold own_index in HOt. unfold mask_rows. revert keep. induction t as [|x t IH]; intros keep; [constructor|]. destruct keep as [|k keep]; [constructor|].
        cbn [map] in HOt. apply NoDup_cons_iff in HOt as [H1 H2]. cbn [combine filter snd]. destruct k; cbn [map fst]; [|now apply IH]. constructor; [|now apply IH].
        intros K. apply H1. apply in_map_iff in K as (r & Er & K). apply in_map_iff in K as ([q b] & Eq & K). cbn in Eq. subst q. apply filter_In in K as [K _]. apply in_combine_l in K. rewrite <- Er. now apply in_map. }
      assert (Hab' : a' <> b').
      { intros ->. apply Hab. apply (proj1 (NoDup_nth_error (map fst (mask_rows t keep))) HNm).
        - rewrite map_length. apply nth_error_Some. congruence.
        - rewrite !nth_error_map. now rewrite Ha, Hb. }
      apply nth_error_In in Ha, Hb. apply (mask_in t 0 keep _ HRt HLm) in Ha as [Ha Ka], Hb as [Hb Kb]. cbn [fst] in Ka, Kb. rewrite Nat.sub_0_r in Ka, Kb.
      now apply (distinct a' b' e f Ha Hb Ka Kb Hab' HS).
    + intros e f g He Hf Hg S1 S2 O1 O2. now rewrite (same e f He Hf S1 O1).
    + intros e f He Hf S1 O1 Hlt _. rewrite (same e f He Hf S1 O1). qlra.
  - intros i j u HC. apply HCt in HC as (e & He & HJ & H1 & H2). apply in_table in He as [a Ha]. destruct (nth a keep true) eqn:Ka.
    + exists e. split; [apply (mask_snd t keep e HRt HLm); eauto|split; [assumption|now split]].
    + destruct (HCov a e Ha Ka) as (_ & f & Hf & Lf & Sf & Hs & He'). apply in_table in Hf as [b Hb]. exists f.
      split; [apply (mask_snd t keep f HRt HLm); exists b; split; [assumption|]|].
      * destruct (nth b keep true) eqn:Kb; [reflexivity|]. exfalso. now apply (HCov b f Hb Kb).
      * split; [now apply (same_nodes_joins e f i j)|]. split; qlra.
Qed.
Theorem merge_all_simple : forall fuel N N', well_made N -> lasting (rows N) -> simple_overlaps (rows N) -> merge_all fuel N = Some N' ->
  forall i j u, contact (rows N) i j u -> contact (rows N') i j u.
Proof.
  induction fuel as [|fuel IH]; intros N N' HW HL HK HM i j u HC; [discriminate|]. cbn [merge_all] in HM.
  destruct (merge_pass_sound N HW) as (N1 & k & E1 & W1 & _ & _ & La & _). rewrite E1 in HM. destruct (merge_pass_simple N N1 k HW HL HK E1) as [HK1 HC1].
  destruct (k =? 0); [injection HM as <-; now apply HC1|]. apply (IH N1 N' W1 (La HL) HK1 HM). now apply HC1.
Qed.

(** * The earliest event of a pair is kept when no other event of the pair starts with it *)
Section First.
Context (i j : nat) (s : num).
Definition firsts (r : nat * event) : bool := (joinsb (snd r) i j && qeqb (e_start (snd r)) s)%bool.
Definition one_first (t : table) : Prop := length (filter firsts t) = 1 /\ forall e, In e (map snd t) -> joins e i j -> (s <= e_start e)%num.
Lemma firsts_spec r : firsts r = true <-> joins (snd r) i j /\ e_start (snd r) = s.
Proof. unfold firsts. rewrite andb_true_iff, joinsb_spec. destruct (qeqb_spec (e_start (snd r)) s); intuition congruence. Qed.
Lemma shape_filter t : forall t', map shape t' = map shape t -> length (filter firsts t') = length (filter firsts t).
Proof.
  induction t as [|x t IH]; intros [|x' t'] E; try discriminate; [reflexivity|]. cbn [map] in E. injection E as E1 E2 E3 E4 E. cbn [filter].
  replace (firsts x') with (firsts x); [destruct (firsts x); cbn [length]; now rewrite (IH t' E)|]. unfold firsts, joinsb. now rewrite E2, E3, E4.
Qed.
Lemma shape_first t t' : map shape t' = map shape t -> one_first t -> one_first t'.
Proof.
  intros E [H1 H2]. split; [now rewrite (shape_filter _ _ E)|]. intros e He HJ. apply in_table in He as [a Ha]. destruct (shape_in _ _ a e E Ha) as (f & Hf & E1 & E2 & E3).
  rewrite E3. apply H2; [apply in_table; eauto|]. unfold joins in *. now rewrite <- E1, <- E2.
Qed.
Lemma merge_loop_keeps : forall evs ev1 t keep t' keep' k, merge_loop ev1 evs t keep = Some (t', keep') -> (forall x, In x evs -> fst x <> k) ->
  nth k keep' true = nth k keep true /\ map shape t' = map shape t.
Proof.
  induction evs as [|x evs IH]; intros ev1 t keep t' keep' k E H; cbn [merge_loop] in E; [injection E as <- <-; now split|].
  assert (Hx : fst x <> k) by (apply H; now left). assert (H' : forall y, In y evs -> fst y <> k) by (intros; apply H; now right).
  destruct (qltb _ _).
  - destruct (fst x <? length keep); [|discriminate]. destruct (IH _ _ _ _ _ _ E H') as [-> ->]. split; [|apply set_end_shape]. now rewrite nth_upd_neq.
  - now apply (IH _ _ _ _ _ _ E).
Qed.
Lemma merge_pair_keeps n1 n2 t keep t' keep' k e : own_index t -> one_first t -> In (k, e) t -> firsts (k, e) = true -> merge_pair n1 n2 (t, keep) = Some (t', keep') ->
  nth k keep' true = nth k keep true /\ map shape t' = map shape t.
Proof.
  intros HO [H1 H2] Hk HP E. unfold merge_pair in E. cbn [fst snd] in E. fold (pair_rows n1 n2 t) in E. pose proof (pair_rows_sorted n1 n2 t) as HS. pose proof (pair_rows_in n1 n2 t) as HI.
  assert (HN : NoDup (pair_rows n1 n2 t)).
  { unfold pair_rows. apply (Permutation_NoDup (Permutation_sym (sort_rows_perm _))). apply NoDup_filter. now apply (NoDup_map_inv fst). }
  destruct (pair_rows n1 n2 t) as [|ev1 evs] eqn:EP; [discriminate|]. apply (merge_loop_keeps evs ev1 t keep t' keep' k E). intros [a f] Hx Ea. cbn [fst] in Ea. subst a.
  destruct (proj1 (HI (k, f)) (or_intror Hx)) as [Hf Jf]. destruct (proj1 (HI ev1) (or_introl eq_refl)) as [H3 J3].
  assert (f = e). { pose proof (row_by_id_own t k f HO Hf). pose proof (row_by_id_own t k e HO Hk). congruence. } subst f.
  apply firsts_spec in HP as HP'. destruct HP' as [HJ Hs]. cbn [snd] in *.
  assert (J1 : joins (snd ev1) i j). { apply (same_nodes_joins e); [assumption|]. now apply (same_nodes_joins e (snd ev1) n1 n2). }
  pose proof (H2 (snd ev1) (in_map snd _ _ H3) J1) as L1. apply StronglySorted_inv in HS as [_ F]. rewrite Forall_forall in F. pose proof (ev_le_start _ _ (F _ Hx)) as L2. cbn [snd] in L2.
  assert (P1 : firsts ev1 = true) by (apply firsts_spec; split; [assumption|]; apply Qcle_antisym; [rewrite <- Hs; assumption|assumption]).
  assert (I1 : In ev1 (filter firsts t)) by (apply filter_In; now split). assert (I2 : In (k, e) (filter firsts t)) by (apply filter_In; now split).
  destruct (filter firsts t) as [|y [|? ?]]; try discriminate. destruct I1 as [I1|[]], I2 as [I2|[]]. apply NoDup_cons_iff in HN as [HN _]. apply HN. congruence.
Qed.
Lemma merge_pairs_keeps : forall ps t keep t' keep' k e, own_index t -> one_first t -> In (k, e) t -> firsts (k, e) = true -> merge_pairs ps (t, keep) = Some (t', keep') ->
  nth k keep' true = nth k keep true /\ map shape t' = map shape t.
Proof.
  induction ps as [|[n1 n2] ps IH]; intros t keep t' keep' k e HO HF Hk HP E; cbn [merge_pairs] in E; [injection E as <- <-; now split|].
  destruct (merge_pair n1 n2 (t, keep)) as [[t1 keep1]|] eqn:E1; [|discriminate]. destruct (merge_pair_keeps _ _ _ _ _ _ _ _ HO HF Hk HP E1) as [K1 S1].
  destruct (shape_sym_in _ _ _ _ S1 Hk) as (e1 & He1 & A & B & C).
  destruct (IH t1 keep1 t' keep' k e1) as [K2 S2]; [|now apply (shape_first t)|assumption| |assumption|split; congruence].
  - unfold own_index. rewrite (shape_fst _ _ S1). exact HO.
  - apply firsts_spec in HP as [HJ Hs]. apply firsts_spec. cbn [snd] in *. unfold joins in *. rewrite A, B, C. now split.
Qed.
Lemma mask_filter (t : table) : forall keep, length (filter firsts (mask_rows t keep)) <= length (filter firsts t).
Proof.
  unfold mask_rows. induction t as [|x t IH]; intros [|b keep]; cbn; try lia. specialize (IH keep). destruct b; cbn; destruct (firsts x); cbn; lia.
Qed.
Lemma filter_firsts_snd t : length (filter firsts t) = length (filter (fun e => joinsb e i j && qeqb (e_start e) s)%bool (map snd t)).
Proof. induction t as [|x t IH]; [reflexivity|]. cbn [filter map]. fold (firsts x). destruct (firsts x); cbn [length]; now rewrite IH. Qed.
Lemma merge_pass_first N N' k : well_made N -> one_first (rows N) -> merge_pass N = Some (N', k) -> one_first (rows N').
Proof.
  intros HW HF HM. pose proof HW as (HR & HOrd & Hids & Hn). pose proof (merge_pass_sound N HW) as (N1 & k1 & E1 & _ & _ & _ & _ & _ & _ & _ & Tw). rewrite HM in E1. injection E1 as <- <-.
  split.
  2: { intros e' He' HJ. destruct (Tw e' He') as (e & He & T1 & T2 & T3). rewrite T3. apply HF; [assumption|]. unfold joins in *. now rewrite <- T1, <- T2. }
  clear Tw. unfold merge_pass in HM. destruct (static_adjacency N None None) as [A|] eqn:EA; [|discriminate]. fold (pass_pairs N A) in HM.
  destruct (merge_pairs (pass_pairs N A) (rows N, repeat true (length (rows N)))) as [[t keep]|] eqn:E; [|discriminate]. injection HM as <- _. cbn [rows].
  destruct (filter firsts (rows N)) as [|[a e] [|? ?]] eqn:EF; try (destruct HF as [HF _]; rewrite EF in HF; discriminate HF).
  assert (Ha : In (a, e) (filter firsts (rows N))) by (rewrite EF; now left). apply filter_In in Ha as [Ha HP].
  pose proof (merge_pairs_keeps _ _ _ _ _ _ _ (reset_own _ HR) HF Ha HP E) as [K S].
  assert (HLen : length keep = length t).
  { destruct (merge_pairs_sound (pass_pairs N A) (rows N) (repeat true (length (rows N))) HR HOrd) as (t1 & keep1 & E1 & HB & HL & _); [apply repeat_length| |].
    - intros p Hp. now apply (static_pairs N A).
    - rewrite E in E1. injection E1 as <- <-. rewrite repeat_length in HL. rewrite HL. symmetry. now apply shape_length. }
  destruct (shape_sym_in _ _ _ _ S Ha) as (e1 & He1 & A1 & A2 & A3). rewrite nth_repeat_true in K. rewrite filter_firsts_snd, reset_index_snd, <- filter_firsts_snd.
  assert (P1 : firsts (a, e1) = true). { apply firsts_spec in HP as [HJ Hs]. apply firsts_spec. cbn [snd] in *. unfold joins in *. rewrite A1, A2, A3. now split. }
  assert (I1 : In (a, e1) (filter firsts (mask_rows t keep))).
  { apply filter_In. split; [|assumption]. apply (mask_in t 0); [exact (shape_reset _ _ S HR)|assumption|]. cbn [fst]. rewrite Nat.sub_0_r. now split. }
  pose proof (mask_filter t keep) as L. rewrite (shape_filter _ _ S), EF in L. cbn [length] in L. destruct (filter firsts (mask_rows t keep)) as [|? [|? ?]]; cbn [length] in *; [contradiction|reflexivity|lia].
Qed.
Theorem merge_all_first : forall fuel N N', well_made N -> one_first (rows N) -> merge_all fuel N = Some N' -> one_first (rows N').
Proof.
  induction fuel as [|fuel IH]; intros N N' HW HF HM; [discriminate|]. cbn [merge_all] in HM.
  destruct (merge_pass_sound N HW) as (N1 & k & E1 & W1 & _). rewrite E1 in HM. pose proof (merge_pass_first N N1 k HW HF E1) as HF1.
  destruct (k =? 0); [injection HM as <-; assumption|]. now apply (IH N1).
Qed.
End First.
Lemma merge_all_more : forall f g N N', merge_all f N = Some N' -> f <= g -> merge_all g N = Some N'.
Proof.
  induction f as [|f IH]; intros g N N' H Hle; [discriminate|]. destruct g as [|g]; [lia|]. cbn [merge_all] in *. destruct (merge_pass N) as [[N1 k]|]; [|discriminate].
  destruct (k =? 0); [assumption|]. apply IH; [assumption|lia].
Qed.
Lemma merge_all_ok fuel N N' : well_made N -> merge_all fuel N = Some N' -> well_made N' /\ nodes N' = nodes N /\
  (lasting (rows N) -> lasting (rows N')) /\ (by_start (rows N) -> by_start (rows N')) /\
  (forall i j u, contact (rows N') i j u -> contact (rows N) i j u) /\ no_overlap (rows N') /\
  (forall e', In e' (map snd (rows N')) -> exists e, In e (map snd (rows N)) /\ twin e e').
Proof.
  intros HW HM. destruct (merge_all_sound (S (fuel + length (rows N))) N HW ltac:(lia)) as (N1 & E & H). rewrite (merge_all_more fuel (S (fuel + length (rows N))) N N' HM ltac:(lia)) in E. injection E as <-. exact H.
Qed.
