(** Property C192, continued: the names of the nodes do not matter for networks whose overlapping
    events are merged.  The pairs of nodes are then visited in another order. *)
From Coq Require Import Permutation Lia.
From Verif Require Import Base PartitionModel PartitionSpec PartitionProofs LouvainModel LouvainSpec LouvainProofs LouvainProps SparseModel EventsModel EventsSpec EventsProofs EventsProps LaplacianProofs MergeProofs
  TransModel TransSpec MatProofs TransProofs TransProps FlowModel FlowSpec FlowProofs FlowGridProofs FlowProps PipeModel PipeSpec PipeProofs PipeProps MergedPipeProps UnitProps RenameSpec RenameProofs RenameProps.

(** ** Pairs of nodes can be visited in any order *)
(** what merging does to one pair: later ends for some rows, and rows that are dropped *)
Fixpoint changes (ev1 : nat * event) (evs : table) : list (nat * num * nat) :=
  match evs with
  | [] => []
  | ev2 :: r => if qltb (e_start (snd ev2)) (e_end (snd ev1)) then (fst ev1, e_end (snd ev2), fst ev2) :: changes ev1 r else changes ev2 r
  end.
Definition change (st : table * list bool) (o : nat * num * nat) : table * list bool := (set_end (fst st) (fst (fst o)) (snd (fst o)), upd (snd st) (snd o) false).
Definition pair_changes (p : nat * nat) (t : table) : list (nat * num * nat) := match pair_rows (fst p) (snd p) t with [] => [] | ev1 :: evs => changes ev1 evs end.

Lemma loop_changes evs : forall ev1 t keep, (forall x, In x evs -> fst x < length keep) -> merge_loop ev1 evs t keep = Some (fold_left change (changes ev1 evs) (t, keep)).
Proof.
  induction evs as [|ev2 evs IH]; intros ev1 t keep H; [reflexivity|]. cbn [merge_loop changes]. destruct (qltb (e_start (snd ev2)) (e_end (snd ev1))).
  - assert (H2 := H ev2 (or_introl eq_refl)). apply Nat.ltb_lt in H2. rewrite H2. cbn [fold_left]. rewrite (IH ev1 _ (upd keep (fst ev2) false)); [reflexivity|]. intros x Hx. rewrite upd_length. apply H. now right.
  - apply IH. intros x Hx. apply H. now right.
Qed.
Lemma changes_in evs : forall ev1 o, In o (changes ev1 evs) -> exists x, In x (ev1 :: evs) /\ fst (fst o) = fst x.
Proof.
  induction evs as [|ev2 evs IH]; intros ev1 o H; [destruct H|]. cbn [changes] in H. destruct (qltb (e_start (snd ev2)) (e_end (snd ev1))).
  - destruct H as [<-|H]; [exists ev1; split; [now left|reflexivity]|]. destruct (IH ev1 o H) as (x & [<-|Hx] & E); [exists ev1; split; [now left|exact E]|exists x; split; [right; now right|exact E]].
  - destruct (IH ev2 o H) as (x & Hx & E). exists x. split; [now right|exact E].
Qed.
Lemma pair_changes_in p t o : In o (pair_changes p t) -> exists e, In (fst (fst o), e) t /\ joins e (fst p) (snd p).
Proof.
  unfold pair_changes. destruct (pair_rows (fst p) (snd p) t) as [|ev1 evs] eqn:E; [intros []|]. intros H. destruct (changes_in _ _ _ H) as (x & Hx & Ex). rewrite <- E in Hx. apply pair_rows_in in Hx. destruct Hx as [Hx HJ].
  exists (snd x). rewrite Ex. split; [now destruct x|exact HJ].
Qed.
Lemma set_end_commute t a b v w : a <> b -> set_end (set_end t a v) b w = set_end (set_end t b w) a v.
Proof.
  intros Hne. unfold set_end. rewrite !map_map. apply map_ext. intros [k e]. cbn [fst snd]. destruct (Nat.eqb_spec k a) as [Ha|Ha], (Nat.eqb_spec k b) as [Hb|Hb]; cbn [fst snd];
    try (exfalso; apply Hne; congruence); repeat (match goal with |- context [k =? ?x] => destruct (Nat.eqb_spec k x); try contradiction end); reflexivity.
Qed.
Lemma upd_commute (l : list bool) : forall a b, upd (upd l a false) b false = upd (upd l b false) a false.
Proof. induction l as [|x l IH]; intros [|a] [|b]; cbn [upd]; try reflexivity. now rewrite IH. Qed.
Lemma change_commute st o o' : fst (fst o) <> fst (fst o') -> change (change st o) o' = change (change st o') o.
Proof. intros H. unfold change. cbn [fst snd]. now rewrite (set_end_commute _ _ _ _ _ H), upd_commute. Qed.
Lemma change_after o l : forall st, (forall o', In o' l -> fst (fst o) <> fst (fst o')) -> fold_left change l (change st o) = change (fold_left change l st) o.
Proof.
  induction l as [|o' l IH]; intros st H; [reflexivity|]. cbn [fold_left]. rewrite (change_commute st o o') by (apply H; now left). apply IH. intros x Hx. apply H. now right.
Qed.
Lemma changes_commute l l' : forall st, (forall o o', In o l -> In o' l' -> fst (fst o) <> fst (fst o')) -> fold_left change l' (fold_left change l st) = fold_left change l (fold_left change l' st).
Proof.
  induction l as [|o l IH]; intros st H; [reflexivity|]. cbn [fold_left]. rewrite IH by (intros a b Ha Hb; apply H; [now right|exact Hb]). f_equal. apply change_after. intros o' Ho'. apply H; [now left|exact Ho'].
Qed.
Lemma filter_unchanged (n1 n2 : nat) l : forall st, (forall o e, In o l -> In (fst (fst o), e) (fst st) -> same_pair n1 n2 e = false) ->
  filter (fun r => same_pair n1 n2 (snd r)) (fst (fold_left change l st)) = filter (fun r => same_pair n1 n2 (snd r)) (fst st).
Proof.
  induction l as [|o l IH]; intros st H; [reflexivity|]. cbn [fold_left]. rewrite IH.
  - unfold change. cbn [fst]. assert (H0 : forall r, In r (fst st) -> fst r = fst (fst o) -> same_pair n1 n2 (snd r) = false) by (intros [k e] Hr E; cbn [fst snd] in *; subst k; now apply (H o e (or_introl eq_refl))).
    destruct st as [t0 k0]. cbn [fst snd] in *. clear - H0. unfold set_end. induction t0 as [|[k e] t IH]; [reflexivity|]. cbn [map filter fst snd]. destruct (Nat.eqb_spec k (fst (fst o))) as [E|E].
    + cbn [snd]. change (same_pair n1 n2 (mkEv (e_src e) (e_tgt e) (e_start e) (snd (fst o)) (e_dur e))) with (same_pair n1 n2 e).
      assert (Hf := H0 (k, e) (or_introl eq_refl) E). cbn [snd] in Hf. rewrite Hf. apply IH. intros r Hr. apply H0. now right.
    + cbn [snd]. rewrite IH by (intros r Hr; apply H0; now right). reflexivity.
  - intros o' e Ho' He. unfold change in He. cbn [fst] in He. apply set_end_in in He. destruct He as (f & Hf & ->). assert (HX := H o' f (or_intror Ho') Hf).
    destruct (fst (fst o') =? fst (fst o)); [exact HX|exact HX].
Qed.
Definition usable_state (st : table * list bool) : Prop := table_reset (fst st) /\ length (snd st) = length (fst st).
Lemma change_shape l : forall st, map shape (fst (fold_left change l st)) = map shape (fst st) /\ length (snd (fold_left change l st)) = length (snd st).
Proof.
  induction l as [|o l IH]; intros st; [split; reflexivity|]. cbn [fold_left]. destruct (IH (change st o)) as [E1 E2]. rewrite E1, E2. unfold change. cbn [fst snd]. split; [apply set_end_shape|apply upd_length].
Qed.
Lemma usable_changes l st : usable_state st -> usable_state (fold_left change l st).
Proof.
  intros [H1 H2]. destruct (change_shape l st) as [E1 E2]. split; [now apply (shape_reset (fst st))|]. rewrite E2, H2. symmetry. now apply shape_length.
Qed.
Lemma pair_exists_changes l st p : pair_exists (fst st) p -> pair_exists (fst (fold_left change l st)) p.
Proof. apply shape_pair. apply change_shape. Qed.
Lemma merge_pair_changes p st : usable_state st -> pair_exists (fst st) p -> merge_pair (fst p) (snd p) st = Some (fold_left change (pair_changes p (fst st)) st).
Proof.
  intros [HR HL] (e & He & HJ). unfold merge_pair, pair_changes. fold (pair_rows (fst p) (snd p) (fst st)). apply in_table in He as [a Ha].
  assert (Hin : In (a, e) (pair_rows (fst p) (snd p) (fst st))) by (apply pair_rows_in; now split). pose proof (pair_rows_in (fst p) (snd p) (fst st)) as HI.
  destruct (pair_rows (fst p) (snd p) (fst st)) as [|ev1 evs]; [destruct Hin|]. destruct st as [t keep]. cbn [fst snd] in *. apply loop_changes. intros x Hx. assert (Hx' := proj1 (HI x) (or_intror Hx)). destruct x as [b f]. rewrite HL. apply (reset_lt t b f HR). exact (proj1 Hx').
Qed.
Lemma same_pair_joins n1 n2 e : same_pair n1 n2 e = true <-> joins e n1 n2.
Proof. unfold same_pair, joins. rewrite Bool.orb_true_iff, !Bool.andb_true_iff, !Nat.eqb_eq. tauto. Qed.
Definition same_nodes_pair (p q : nat * nat) : Prop := (fst p = fst q /\ snd p = snd q) \/ (fst p = snd q /\ snd p = fst q).
Lemma joins_both e p q : joins e (fst p) (snd p) -> joins e (fst q) (snd q) -> same_nodes_pair p q.
Proof. unfold joins, same_nodes_pair. intros H1 H2. intuition congruence. Qed.
Lemma same_changes p q t : same_nodes_pair p q -> pair_changes p t = pair_changes q t.
Proof.
  intros H. assert (E : pair_rows (fst p) (snd p) t = pair_rows (fst q) (snd q) t); [|unfold pair_changes; now rewrite E]. unfold pair_rows. f_equal. apply filter_ext. intros r. apply Bool.eq_iff_eq_true. rewrite !same_pair_joins. unfold joins.
  destruct H as [[-> ->]|[-> ->]]; tauto.
Qed.
Lemma other_changes p q st : usable_state st -> ~ same_nodes_pair p q -> pair_changes q (fst (fold_left change (pair_changes p (fst st)) st)) = pair_changes q (fst st).
Proof.
  intros [HR _] Hne. unfold pair_changes at 1 3, pair_rows at 1 2. rewrite filter_unchanged; [reflexivity|]. intros o e Ho He. destruct (same_pair (fst q) (snd q) e) eqn:E; [|reflexivity]. exfalso. apply Hne.
  apply same_pair_joins in E. destruct (pair_changes_in p (fst st) o Ho) as (f & Hf & HJ). assert (EF : e = f) by (exact (own_unique (fst st) (fst (fst o)) e f (reset_own _ HR) He Hf)). subst f. now apply (joins_both e).
Qed.
Lemma pairs_permuted ps ps' : Permutation ps ps' -> forall st, usable_state st -> (forall p, In p ps -> pair_exists (fst st) p) -> merge_pairs ps st = merge_pairs ps' st.
Proof.
  intros HP. induction HP as [|p l l' HP IH|p q l|l1 l2 l3 H1 IH1 H2 IH2]; intros st HU HE.
  - reflexivity.
  - assert (Hp := HE p (or_introl eq_refl)). destruct p as [a b]. cbn [merge_pairs]. pose proof (merge_pair_changes (a, b) st HU Hp) as E1. cbn [fst snd] in E1. rewrite E1.
    apply IH; [now apply usable_changes|]. intros q Hq. apply pair_exists_changes, HE. now right.
  - assert (Hq := HE q (or_introl eq_refl)). assert (Hp := HE p (or_intror (or_introl eq_refl))).
    assert (ST : forall x, merge_pairs (x :: nil) st = merge_pairs (x :: nil) st) by reflexivity. clear ST.
    assert (UNF : forall (x y : nat * nat) r, pair_exists (fst st) x -> pair_exists (fst st) y -> merge_pairs (x :: y :: r) st = merge_pairs r (fold_left change (pair_changes y (fst (fold_left change (pair_changes x (fst st)) st))) (fold_left change (pair_changes x (fst st)) st))).
    { intros x y r Hx Hy. pose proof (merge_pair_changes x st HU Hx) as E1. pose proof (merge_pair_changes y _ (usable_changes (pair_changes x (fst st)) st HU) (pair_exists_changes _ st y Hy)) as E2. destruct x as [a b], y as [c d]. cbn [fst snd] in E1, E2. cbn [merge_pairs]. rewrite E1, E2. reflexivity. }
    rewrite (UNF q p l Hq Hp), (UNF p q l Hp Hq). f_equal.
    assert (DEC : same_nodes_pair p q \/ ~ same_nodes_pair p q) by (unfold same_nodes_pair; destruct (Nat.eq_dec (fst p) (fst q)), (Nat.eq_dec (snd p) (snd q)), (Nat.eq_dec (fst p) (snd q)), (Nat.eq_dec (snd p) (fst q)); tauto).
    destruct DEC as [S|N].
    + rewrite !(same_changes p q _ S). reflexivity.
    + assert (N' : ~ same_nodes_pair q p) by (intros [[A B]|[A B]]; apply N; [left|right]; split; congruence).
      rewrite (other_changes p q st HU N), (other_changes q p st HU N'). apply changes_commute. intros o o' Ho Ho' E. destruct (pair_changes_in _ _ _ Ho) as (e & He & HJ). destruct (pair_changes_in _ _ _ Ho') as (f & Hf & HJ').
      rewrite <- E in Hf. assert (EF : e = f) by (exact (own_unique (fst st) (fst (fst o)) e f (reset_own _ (proj1 HU)) He Hf)). subst f. apply N'. now apply (joins_both e).
  - rewrite (IH1 st HU HE). apply IH2; [exact HU|]. intros p Hp. apply HE. apply Permutation_sym in H1. now apply (Permutation_in p H1).
Qed.

(** ** Merging and renaming *)
Section Merging.
Context (n : nat) (s t : nat -> nat) (HR : renaming n s t).
Definition ren_pair (p : nat * nat) : nat * nat := (s (fst p), s (snd p)).
Definition ren_state (st : table * list bool) : table * list bool := (ren_table s (fst st), snd st).
Definition ren_net (N : net) : net := mkNet (ren_table s (rows N)) (nodes N).
Lemma set_end_ren tb id v : set_end (ren_table s tb) id v = ren_table s (set_end tb id v).
Proof. unfold set_end, ren_table. rewrite !map_map. apply map_ext. intros r. cbn. now destruct (fst r =? id). Qed.
Lemma merge_loop_ren evs : forall ev1 tb keep, merge_loop (ren_row s ev1) (ren_table s evs) (ren_table s tb) keep = option_map ren_state (merge_loop ev1 evs tb keep).
Proof.
  induction evs as [|ev2 evs IH]; intros ev1 tb keep; [reflexivity|]. cbn [merge_loop ren_table map]. fold (ren_table s evs). fold (ren_table s tb). cbn [ren_row snd fst ren_event e_start e_end].
  destruct (qltb (e_start (snd ev2)) (e_end (snd ev1))).
  - destruct (fst ev2 <? length keep); [|reflexivity]. rewrite set_end_ren. apply IH.
  - apply (IH ev2).
Qed.
Lemma filter_ren_in (P Q : nat * event -> bool) tb : (forall r, In r tb -> P (ren_row s r) = Q r) -> filter P (ren_table s tb) = ren_table s (filter Q tb).
Proof.
  intros H. induction tb as [|x tb IH]; [reflexivity|]. cbn [ren_table map filter]. fold (ren_table s tb). rewrite (H x (or_introl eq_refl)), IH by (intros r Hr; apply H; now right). now destruct (Q x).
Qed.
Lemma merge_pair_ren p st : ids_below n (fst st) -> fst p < n -> snd p < n -> merge_pair (s (fst p)) (s (snd p)) (ren_state st) = option_map ren_state (merge_pair (fst p) (snd p) st).
Proof using HR.
  intros HB H1 H2. unfold merge_pair, ren_state. cbn [fst snd]. rewrite (filter_ren_in _ (fun r => same_pair (fst p) (snd p) (snd r))).
  - rewrite (sort_ren s). destruct (sort_rows _) as [|ev1 evs]; [reflexivity|]. apply merge_loop_ren.
  - intros r Hr. destruct (HB (snd r) (in_map snd _ _ Hr)) as [B1 B2]. unfold same_pair. cbn [ren_row snd ren_event e_src e_tgt]. now rewrite !(s_eqb n s t HR) by assumption.
Qed.
Lemma merge_loop_shape evs : forall ev1 tb keep tb' keep', merge_loop ev1 evs tb keep = Some (tb', keep') -> map shape tb' = map shape tb.
Proof.
  induction evs as [|ev2 evs IH]; intros ev1 tb keep tb' keep' E; [cbn in E; congruence|]. cbn [merge_loop] in E. destruct (qltb _ _); [|exact (IH _ _ _ _ _ E)].
  destruct (_ <? _); [|discriminate E]. rewrite (IH _ _ _ _ _ E). apply set_end_shape.
Qed.
Lemma merge_pair_shape a b st st' : merge_pair a b st = Some st' -> map shape (fst st') = map shape (fst st).
Proof. unfold merge_pair. destruct (sort_rows _) as [|ev1 evs]; [discriminate|]. destruct st' as [tb' k']. apply merge_loop_shape. Qed.
Lemma below_shape tb tb' : map shape tb' = map shape tb -> ids_below n tb -> ids_below n tb'.
Proof. intros E H e He. apply in_table in He as [a Ha]. destruct (shape_in tb tb' a e E Ha) as (f & Hf & -> & -> & _). apply H. apply in_table. eauto. Qed.
Lemma merge_pairs_ren ps : forall st, ids_below n (fst st) -> (forall p, In p ps -> fst p < n /\ snd p < n) -> merge_pairs (map ren_pair ps) (ren_state st) = option_map ren_state (merge_pairs ps st).
Proof using HR.
  induction ps as [|[a b] ps IH]; intros st HB HP; [reflexivity|]. cbn [merge_pairs map ren_pair fst snd]. destruct (HP (a, b) (or_introl eq_refl)) as [H1 H2]. cbn [fst snd] in H1, H2.
  pose proof (merge_pair_ren (a, b) st HB H1 H2) as E. cbn [fst snd] in E. rewrite E. destruct (merge_pair a b st) as [st'|] eqn:E'; [|reflexivity]. cbn [option_map]. apply IH; [|intros p Hp; apply HP; now right].
  apply (below_shape (fst st)); [exact (merge_pair_shape a b st st' E')|exact HB].
Qed.
Lemma mask_ren tb keep : mask_rows (ren_table s tb) keep = ren_table s (mask_rows tb keep).
Proof. unfold mask_rows, ren_table. revert keep. induction tb as [|r tb IH]; intros [|k keep]; try reflexivity. cbn. destruct k; cbn; now rewrite IH. Qed.
Lemma coo_ren tb u v i j : ids_below n tb -> i < n -> j < n -> coo_entry (ren_table s tb) u v (s i) (s j) = coo_entry tb u v i j.
Proof using HR.
  intros HB Hi Hj. unfold coo_entry. rewrite (filter_ren_in _ (fun r => in_window (snd r) u v)) by reflexivity. unfold ren_table. rewrite sumL_map. apply sumL_ext. intros r Hr. apply filter_In in Hr.
  destruct (HB (snd r) (in_map snd _ _ (proj1 Hr))) as [B1 B2]. cbn [ren_row snd ren_event e_src e_tgt]. rewrite !(s_eqb n s t HR) by assumption. reflexivity.
Qed.
Lemma static_ren N A : num_nodes_of N = n -> static_adjacency N None None = Some A ->
  exists A', static_adjacency (ren_net N) None None = Some A' /\ forall i j, i < n -> j < n -> A' (s i) (s j) = A i j.
Proof using HR.
  intros Hn. unfold static_adjacency. destruct (ids_ok N) eqn:Hok; [|discriminate]. intros E.
  assert (HB : ids_below n (rows N)) by (intros e He; rewrite <- Hn; exact (proj1 (ids_ok_spec N) Hok e He)).
  assert (Hok' : ids_ok (ren_net N) = true). { apply ids_ok_spec. change (num_nodes_of (ren_net N)) with (num_nodes_of N). rewrite Hn. cbn [ren_net rows]. intros e He. rewrite (snd_ren s) in He. apply in_map_iff in He. destruct He as (f & <- & Hf). apply HB in Hf. cbn. split; now apply HR. }
  rewrite Hok'. eexists. split; [reflexivity|]. injection E as <-. intros i j Hi Hj.
  assert (E1 : start_time (ren_net N) = start_time N) by (unfold start_time, ren_net, ren_table; cbn [rows]; now rewrite map_map). assert (E2 : end_time (ren_net N) = end_time N) by (unfold end_time, ren_net, ren_table; cbn [rows]; now rewrite map_map).
  cbn beta. rewrite E1, E2. cbn [ren_net rows]. now rewrite !coo_ren.
Qed.
Lemma NoDup_pairs (f : nat -> list nat) l : NoDup l -> (forall x, NoDup (f x)) -> NoDup (flat_map (fun x => map (fun y => (x, y)) (f x)) l).
Proof.
  intros HN Hf. induction HN as [|x l Hx HN IH]; [constructor|]. cbn [flat_map]. apply PartitionProofs.NoDup_app_iff. split; [|split; [exact IH|]].
  - apply NoDup_map_inj_in; [intros a b _ _ E; congruence|apply Hf].
  - intros [a b] H1 H2. apply in_map_iff in H1. destruct H1 as (y & E & _). apply in_flat_map in H2. destruct H2 as (x' & Hx' & H2). apply in_map_iff in H2. destruct H2 as (y' & E' & _). apply Hx. congruence.
Qed.
Lemma pairs_ren N A A' : nodes N = seq 0 n -> (forall i j, i < n -> j < n -> A' (s i) (s j) = A i j) -> Permutation (pass_pairs (ren_net N) A') (map ren_pair (pass_pairs N A)).
Proof using HR.
  intros Hn HA. assert (Hl : num_nodes_of N = n) by (unfold num_nodes_of; rewrite Hn; apply seq_length). apply NoDup_Permutation.
  - apply NoDup_pairs; [cbn [ren_net nodes]; rewrite Hn; apply seq_NoDup|]. intros x. apply NoDup_filter, seq_NoDup.
  - apply NoDup_map_inj_in; [|apply NoDup_pairs; [rewrite Hn; apply seq_NoDup|intros x; apply NoDup_filter, seq_NoDup]].
    intros [a b] [c d] H1 H2 E. apply pass_pairs_in in H1, H2. rewrite Hn, Hl, !in_seq in H1, H2. cbn [fst snd] in *. unfold ren_pair in E. cbn [fst snd] in E. injection E as E1 E2. apply (s_inj n s t HR) in E1, E2; [congruence|lia..].
  - intros [a b]. rewrite in_map_iff, pass_pairs_in. change (num_nodes_of (ren_net N)) with (num_nodes_of N). cbn [ren_net nodes fst snd]. rewrite Hn, Hl, in_seq. split.
    + intros (H1 & H2 & H3). assert (Ha : a < n) by lia. exists (t a, t b). unfold ren_pair. cbn [fst snd]. rewrite !(s_t n s t HR) by assumption. split; [reflexivity|]. apply pass_pairs_in. cbn [fst snd]. rewrite Hn, Hl, in_seq.
      assert (Ta := t_lt n s t HR a Ha). assert (Tb := t_lt n s t HR b H2). split; [lia|]. split; [exact Tb|]. rewrite <- (HA (t a) (t b) Ta Tb), !(s_t n s t HR) by assumption. exact H3.
    + intros ([c d] & E & H). apply pass_pairs_in in H. cbn [fst snd] in H. rewrite Hn, Hl, in_seq in H. destruct H as (H1 & H2 & H3). unfold ren_pair in E. cbn [fst snd] in E. injection E as <- <-. assert (Hc : c < n) by lia.
      assert (Sc := s_lt n s t HR c Hc). split; [lia|]. split; [now apply (s_lt n s t HR)|]. now rewrite HA.
Qed.
Lemma merge_pass_ren N : nodes N = seq 0 n -> well_made N -> merge_pass (ren_net N) = option_map (fun x => (ren_net (fst x), snd x)) (merge_pass N).
Proof using HR.
  intros Hn HW. assert (Hl : num_nodes_of N = n) by (unfold num_nodes_of; rewrite Hn; apply seq_length). pose proof HW as (HT & _ & Hok & _).
  assert (HB : ids_below n (rows N)) by (intros e He; rewrite <- Hl; exact (proj1 (ids_ok_spec N) Hok e He)).
  unfold merge_pass. destruct (static_adjacency N None None) as [A|] eqn:E; [|unfold static_adjacency in E; rewrite Hok in E; discriminate E]. destruct (static_ren N A Hl E) as (A' & -> & HA).
  fold (pass_pairs N A). fold (pass_pairs (ren_net N) A').
  assert (ES : (rows (ren_net N), repeat true (length (rows (ren_net N)))) = ren_state (rows N, repeat true (length (rows N)))) by (unfold ren_state, ren_net, ren_table; cbn; now rewrite map_length).
  assert (HP := pairs_ren N A A' Hn HA). rewrite ES, (pairs_permuted _ _ HP).
  - rewrite merge_pairs_ren; [|exact HB|intros p Hp; apply pass_pairs_in in Hp; rewrite Hn, Hl, in_seq in Hp; lia].
    destruct (merge_pairs (pass_pairs N A) _) as [[tb keep]|]; [|reflexivity]. cbn [option_map ren_state fst snd ren_net nodes rows]. rewrite mask_ren, (reset_ren s). reflexivity.
  - split; cbn [ren_state fst snd]; [|unfold ren_table; now rewrite map_length, repeat_length]. unfold table_reset, ren_table in *. rewrite map_map, map_length. exact HT.
  - intros p Hp. apply (Permutation_in p HP) in Hp. apply in_map_iff in Hp. destruct Hp as (q & <- & Hq). destruct (static_pairs N A q HW E Hq) as (e & He & HJ). exists (ren_event s e). cbn [ren_state fst]. split; [rewrite (snd_ren s); now apply in_map|].
    unfold joins in *. cbn. destruct HJ as [[-> ->]|[-> ->]]; tauto.
Qed.
Lemma merge_all_ren fuel : forall N, nodes N = seq 0 n -> well_made N -> merge_all fuel (ren_net N) = option_map ren_net (merge_all fuel N).
Proof using HR.
  induction fuel as [|f IH]; intros N Hn HW; [reflexivity|]. cbn [merge_all]. rewrite (merge_pass_ren N Hn HW). destruct (merge_pass_sound N HW) as (N' & k & E & W' & EN & _). rewrite E. cbn [option_map fst snd]. destruct (k =? 0); [reflexivity|]. apply IH; [congruence|exact W'].
Qed.
End Merging.

Lemma nodes_range tb : ids_below (length (node_array tb)) tb -> node_array tb = seq 0 (length (node_array tb)).
Proof.
  intros HB. set (n := length (node_array tb)) in *. apply sorted_range; [apply node_array_sorted|]. 
  assert (HN : NoDup (node_array tb)). { clear. assert (H := node_array_sorted tb). induction H as [|x l H IH HF]; [constructor|]. constructor; [|exact IH]. intros Hx. rewrite Forall_forall in HF. specialize (HF x Hx). lia. }
  assert (HI : incl (node_array tb) (seq 0 n)) by (intros y Hy; apply node_array_in in Hy; destruct Hy as (e & He & Hy); apply HB in He; apply in_seq; destruct Hy as [-> | ->]; lia).
  intros x. split; [intros Hx; apply HI, in_seq in Hx; lia|]. intros Hx. apply (NoDup_length_incl HN (l' := seq 0 n)); [rewrite seq_length; unfold n; lia|exact HI|apply in_seq; lia].
Qed.

Lemma merged_renamed fuel srcs tgts starts ends N0 N s t : make_net 0 true false srcs tgts starts ends = Some N0 -> ids_ok N0 = true -> ordered (rows N0) ->
  make_net fuel true true srcs tgts starts ends = Some N -> renaming (num_nodes_of N0) s t -> make_net fuel true true (map s srcs) (map s tgts) starts ends = Some (ren_net s N).
Proof.
  intros HN0 Hok HOrd HM HR. destruct (make_net_well _ _ _ _ _ _ HN0 HOrd Hok) as [HW _]. rewrite (make_net_merge _ _ _ _ _ N0 HN0) in HM.
  set (n := num_nodes_of N0) in *. assert (HB : ids_below n (rows N0)) by (intros e He; exact (proj1 (ids_ok_spec N0) Hok e He)).
  assert (ENA : nodes N0 = node_array (rows N0)) by (unfold make_net in HN0; destruct (build_table true srcs tgts starts ends); [|discriminate HN0]; injection HN0 as <-; reflexivity).
  assert (Hl : length (node_array (rows N0)) = n) by (unfold n, num_nodes_of; now rewrite ENA).
  assert (Hn0 : nodes N0 = seq 0 n) by (rewrite ENA, <- Hl; apply nodes_range; rewrite Hl; exact HB).
  assert (HN0' : make_net 0 true false (map s srcs) (map s tgts) starts ends = Some (ren_net s N0)).
  { revert HN0. unfold make_net. rewrite (build_ren s). destruct (build_table true srcs tgts starts ends) as [tb|]; [|discriminate]. cbn [option_map]. intros E. injection E as E. subst N0. f_equal. unfold ren_net. cbn [rows nodes] in *. f_equal.
    rewrite Hn0, <- (nodes_ren n s t HR tb Hl HB). apply nodes_range. rewrite (nodes_ren n s t HR tb Hl HB). intros e He. rewrite (snd_ren s) in He. apply in_map_iff in He. destruct He as (f & <- & Hf). apply HB in Hf. cbn. split; now apply HR. }
  now rewrite (make_net_merge _ _ _ _ _ _ HN0'), (merge_all_ren n s t HR fuel N0 Hn0 HW), HM.
Qed.

(** * C192: networks whose overlapping events are merged *)
Theorem C192_merged : forall fuel srcs tgts starts ends N0 N s t, make_net 0 true false srcs tgts starts ends = Some N0 -> ids_ok N0 = true -> ordered (rows N0) ->
  make_net fuel true true srcs tgts starts ends = Some N -> renaming (num_nodes_of N0) s t ->
  exists N', make_net fuel true true (map s srcs) (map s tgts) starts ends = Some N' /\ num_nodes_of N' = num_nodes_of N /\ ids_ok N' = true /\ times (rows N') = times (rows N) /\
    (forall i j u, i < num_nodes_of N -> j < num_nodes_of N -> (contact (rows N') (s i) (s j) u <-> contact (rows N) i j u)) /\
    forall g, is_time_grid (rows N) g -> is_time_grid (rows N') g /\ forall a b,
      match compute_laplacians N g a b, compute_laplacians N' g a b with
      | Some (ka, kb, Ls), Some (ka', kb', Ls') => ka' = ka /\ kb' = kb /\ Forall2 (fun A A' => eqm (num_nodes_of N) A' (renamed t A)) Ls Ls'
      | None, None => True
      | _, _ => False
      end.
Proof.
  intros fuel srcs tgts starts ends N0 N s t HN0 Hok HOrd HM HR. pose proof (merged_renamed fuel srcs tgts starts ends N0 N s t HN0 Hok HOrd HM HR) as HM'.
  destruct (make_net_well _ _ _ _ _ _ HN0 HOrd Hok) as [HW _]. rewrite (make_net_merge _ _ _ _ _ N0 HN0) in HM. set (n := num_nodes_of N0) in *.
  exists (ren_net s N). split; [exact HM'|].
  destruct (merge_all_ok fuel N0 N HW HM) as ((_ & _ & Hok' & _) & EN & _). assert (Hl' : num_nodes_of N = n) by (unfold num_nodes_of; rewrite EN; reflexivity).
  assert (HB' : ids_below n (rows N)) by (intros e He; rewrite <- Hl'; exact (proj1 (ids_ok_spec N) Hok' e He)). split; [reflexivity|]. split.
  { apply ids_ok_spec. change (num_nodes_of (ren_net s N)) with (num_nodes_of N). rewrite Hl'. cbn [ren_net rows]. intros e He. rewrite (snd_ren s) in He. apply in_map_iff in He. destruct He as (f & <- & Hf). apply HB' in Hf. cbn. split; now apply HR. }
  split; [apply times_ren|]. rewrite Hl'. split.
  { intros i j u Hi Hj. split.
    - intros (e & He & HJ & HA). cbn [ren_net rows] in He. rewrite (snd_ren s) in He. apply in_map_iff in He. destruct He as (f & <- & Hf). exists f. split; [exact Hf|]. split; [|exact HA]. destruct (HB' f Hf) as [B1 B2]. unfold joins in *. cbn in HJ.
      destruct HJ as [[J1 J2]|[J1 J2]]; [left|right]; split; apply (s_inj n s t HR); assumption.
    - intros (e & He & HJ & HA). exists (ren_event s e). cbn [ren_net rows]. split; [rewrite (snd_ren s); now apply in_map|]. split; [|exact HA]. unfold joins in *. cbn. destruct HJ as [[-> ->]|[-> ->]]; tauto. }
  intros g [G1 G2]. split; [split; [cbn [ren_net rows]; now rewrite grid_rows_ren|exact G2]|]. intros a b.
  assert (HX := same_laplacians n s t HR N (ren_net s N) g a b Hl' Hl' eq_refl Hok').
  destruct (compute_laplacians N g a b) as [[[ka kb] Ls]|], (compute_laplacians (ren_net s N) g a b) as [[[ka' kb'] Ls']|]; cbn in HX; try contradiction; [|exact I]. destruct HX as [HX HF]. injection HX as -> ->. now split.
Qed.
(** the whole analysis of a merged network *)
Theorem C192_merged_analysis : forall fuel srcs tgts starts ends N0 N s t g E P k q q' l dir,
  make_net 0 true false srcs tgts starts ends = Some N0 -> ids_ok N0 = true -> ordered (rows N0) -> no_self_contact (rows N0) ->
  make_net fuel true true srcs tgts starts ends = Some N -> rows N <> [] -> is_time_grid (rows N) g -> renaming (num_nodes_of N) s t ->
  expm_ok (num_nodes_of N) E -> (forall x A A', eqm (num_nodes_of N) A' (renamed t A) -> eqm (num_nodes_of N) (E x A') (renamed t (E x A))) ->
  2 <= length (times (rows N)) -> no_scale_keywords k -> fits (num_nodes_of N) (k_p1 q) = true -> fits (num_nodes_of N) (k_p1 q') = true ->
  distribution_ok (num_nodes_of N) (given_density (k_p1 q)) -> k_grid q = None -> k_grid q' = None ->
  match k_p1 q, k_p1 q' with Some p, Some p' => forall i, i < num_nodes_of N -> nth i p' 0%num = nth (t i) p 0%num | None, None => True | _, _ => False end ->
  Forall usable l -> ~ In None l ->
  exists N' A A', make_net fuel true true (map s srcs) (map s tgts) starts ends = Some N' /\
    analysis (num_nodes_of N) (times (rows N)) (compute_laplacians N g) E P k q l dir (one_each dir l A) /\
    analysis (num_nodes_of N') (times (rows N')) (compute_laplacians N' g) E P k q' l dir (one_each dir l A') /\
    forall w rev, In (Some w) l -> wanted dir rev = true -> eqm (num_nodes_of N) (A' (Some w) rev) (renamed t (A (Some w) rev)).
Proof.
  intros fuel srcs tgts starts ends N0 N s t g E P k q q' l dir HN0 Hok HOrd Hself HM Hne HG HR HE HEq H2 Hk Hf Hf' Hp Hg Hg' Hpp Hu Hnone.
  destruct (make_net_well _ _ _ _ _ _ HN0 HOrd Hok) as [HWell _]. pose proof HM as HM1. rewrite (make_net_merge _ _ _ _ _ N0 HN0) in HM1. destruct (merge_all_ok fuel N0 N HWell HM1) as ((HT & _ & Hids1 & _) & EN & _ & _ & _ & _ & Tw).
  assert (EN' : num_nodes_of N = num_nodes_of N0) by (unfold num_nodes_of; now rewrite EN). assert (HR0 := HR). rewrite EN' in HR0.
  assert (Hself1 : no_self_contact (rows N)) by (intros e He; destruct (Tw e He) as (f & Hf0 & -> & -> & _); now apply Hself).
  destruct (C192_merged fuel srcs tgts starts ends N0 N s t HN0 Hok HOrd HM HR0) as (N' & HN' & EV & Hids' & ET & _ & HX). destruct (HX g HG) as [HG' HLap]. exists N'.
  assert (ER : rows N' = ren_table s (rows N)). { rewrite (merged_renamed fuel srcs tgts starts ends N0 N s t HN0 Hok HOrd HM HR0) in HN'. injection HN' as <-. reflexivity. }
  assert (HO : own_index (rows N)) by (now apply reset_own).
  assert (HO' : own_index (rows N')). { apply reset_own. rewrite ER. unfold table_reset, ren_table in *. rewrite map_map, map_length. exact HT. }
  assert (Hne' : rows N' <> []) by (rewrite ER; unfold ren_table; destruct (rows N); [congruence|discriminate]).
  assert (Hself' : no_self_contact (rows N')).
  { rewrite ER. intros e He. rewrite snd_ren in He. apply in_map_iff in He. destruct He as (f & <- & Hf0). cbn. intros E0. apply (Hself1 f Hf0).
    destruct (proj1 (ids_ok_spec N) Hids1 f Hf0) as [B1 B2]. now apply (s_inj (num_nodes_of N) s t HR). }
  destruct (net_laplacians N g Hne Hids1 Hself1 HO HG) as (HL & HS & Ls & HW). destruct (net_laplacians N' g Hne' Hids' Hself' HO' HG') as (HL' & HS' & Ls' & HW').
  assert (HLs : Forall2 (fun A A' => eqm (num_nodes_of N) A' (renamed t A)) Ls Ls').
  { assert (Q := HLap None None). unfold whole_time in HW, HW'. rewrite HW, HW' in Q. now destruct Q as (_ & _ & Q). }
  assert (H2' : 2 <= length (times (rows N'))) by now rewrite ET.
  destruct (C152_analysis_partial _ _ _ E P Ls k q l dir HL HS HE HW H2 Hk Hf Hp Hg Hu Hnone) as (s1 & s2 & s3 & A & A1 & A2 & A3 & A4 & A5).
  assert (Hp' : distribution_ok (num_nodes_of N) (given_density (k_p1 q'))).
  { destruct (k_p1 q) as [p|], (k_p1 q') as [p'|]; try contradiction; [|exact Hp]. cbn in Hp |- *. destruct Hp as [P1 P2]. split; [intros i Hi; rewrite Hpp by assumption; apply P1; now apply HR|].
    rewrite <- P2, <- (sumN_renamed (num_nodes_of N) s t HR (fun i => nth i p 0%num)). apply sumN_ext. intros i Hi. now apply Hpp. }
  rewrite <- EV in HE, Hf', Hp'.
  destruct (C152_analysis_partial _ _ _ E P Ls' k q' l dir HL' HS' HE HW' H2' Hk Hf' Hp' Hg' Hu Hnone) as (s1' & s2' & s3' & A' & A1' & A2' & A3' & A4' & A5').
  exists A, A'. split; [exact HN'|]. split; [now exists s1, s2, s3|]. split; [now exists s1', s2', s3'|]. intros w rev Hw Hd.
  clear HM. destruct (A5 w rev Hw Hd) as (M & HM & EA). destruct (A5' w rev Hw Hd) as (M' & HM' & EA'). rewrite EV in HM', EA'. rewrite ET in HM', EA'.
  eapply eqm_trans; [exact EA'|]. eapply eqm_trans; [|apply (renamed_ext _ s t HR), eqm_sym, EA].
  destruct (proj2 HM ltac:(lia)) as [HLM HK]. destruct (proj2 HM' ltac:(lia)) as [HLM' HK'].
  assert (HMM : Forall2 (fun A A' => eqm (num_nodes_of N) A' (renamed t A)) M M').
  { assert (HP : forall j, j < length M -> eqm (num_nodes_of N) (nth j M' ident) (renamed t (nth j M ident))).
    { intros j Hj. eapply eqm_trans; [apply HK'; lia|]. eapply eqm_trans; [|apply (renamed_ext _ s t HR), eqm_sym, HK; lia]. apply HEq.
      clear - HLs HR. revert j. induction HLs as [|B B' Ls Ls' HB HLs IH]; intros [|j]; cbn; [apply (renamed_ident _ s t HR)|apply (renamed_ident _ s t HR)|exact HB|apply IH]. }
    assert (HLL : length M' = length M) by lia. clear - HP HLL. revert M' HLL HP. induction M as [|B M IH]; intros [|B' M'] HLL HP; try discriminate HLL; constructor; [apply (HP 0); cbn; lia|].
    apply IH; [now injection HLL|]. intros j Hj. apply (HP (S j)). cbn. lia. }
  unfold flow_average. change (flow_times None (Some M') (Some (times (rows N))) rev) with (flow_times None (Some M) (Some (times (rows N))) rev).
  apply (renamed_average _ s t HR).
  - intros i Hi. destruct (k_p1 q) as [p|], (k_p1 q') as [p'|]; try contradiction; [now apply Hpp|reflexivity].
  - intros j Hj. unfold flow_transition, transition. cbn [given]. apply (renamed_chain _ s t HR). apply Forall2_firstn. unfold in_order. destruct rev; [now apply Forall2_rev'|exact HMM].
Qed.
(** the network of C37, whose events 0-1 overlap, with its nodes in the order 2, 0, 1: the pairs are visited in another order and a row is merged *)
Example C192_merged_applies : make_net 0 true false [1; 0; 2; 0] [0; 1; 1; 1] [qn 1; qn 0; qn 3; qn 4] [qn 4; qn 2; qn 5; qn 6] = Some net37s /\ ids_ok net37s = true /\ ordered (rows net37s) /\ no_self_contact (rows net37s) /\ renaming (num_nodes_of net37s) s192 t192 /\
  exists N, make_net 9 true true [1; 0; 2; 0] [0; 1; 1; 1] [qn 1; qn 0; qn 3; qn 4] [qn 4; qn 2; qn 5; qn 6] = Some N /\ length (rows N) = 3 /\ 2 <= length (times (rows N)).
Proof.
  split; [apply C37_applies|]. split; [reflexivity|]. split; [intros e He; cbn in He; repeat (destruct He as [<-|He]; [vm_compute; discriminate|]); destruct He|]. split; [exact (proj1 (proj2 C34_merged_applies))|]. split; [exact (proj1 C192_applies)|].
  eexists. split; [reflexivity|]. split; [vm_compute; reflexivity|]. vm_compute. lia.
Qed.
Print Assumptions C192_merged.
Print Assumptions C192_merged_analysis.
